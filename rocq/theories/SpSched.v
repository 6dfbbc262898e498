(* Which packet the weighted round-robin arbitrator sends: priorities, bandwidth caps,
   bandwidth minima.  Facts for C103 and C104. *)
From Coq Require Import List ZArith Bool Arith Lia Permutation.
From Verif Require Import PtModel PtProp SpModel SpSpec SpProof SpArb SpWrr SpOrder SpProp.
Import ListNotations.
Local Open Scope Z_scope.

(* ---------- specification ---------- *)

(* The calls of an arbitrator, latest first, with the packet each pop returned *)
Inductive call : Type := Inserted (t : Z) (p : spkt) | Credited (l : nat) (n : Z) | Popped (t : Z) (p : spkt).

Fixpoint inserted (h : list call) : list spkt :=
  match h with [] => [] | Inserted _ p :: r => inserted r ++ [p] | _ :: r => inserted r end.
Fixpoint popped (h : list call) : list (Z * spkt) :=
  match h with [] => [] | Popped t p :: r => popped r ++ [(t, p)] | _ :: r => popped r end.
Fixpoint given (l : nat) (h : list call) : Z :=
  match h with
  | [] => 0
  | Credited m n :: r => given l r + if Nat.eqb m l then n else 0
  | _ :: r => given l r
  end.
(* The time of the latest call that has one *)
Fixpoint clock (h : list call) : Z :=
  match h with [] => 0 | Inserted t _ :: _ => t | Popped t _ :: _ => t | _ :: r => clock r end.

Definition lane_type (lanes : list (sel * Z * Z * Z)) (l : nat) : sel :=
  let '(s, _, _, _) := nth l lanes (NoQos, 0, 0, 0) in s.
Definition lane_delay (lanes : list (sel * Z * Z * Z)) (l : nat) : Z :=
  let '(_, d, _, _) := nth l lanes (NoQos, 0, 0, 0) in d.
Definition lane_prio (lanes : list (sel * Z * Z * Z)) (l : nat) : Z :=
  let '(_, _, p, _) := nth l lanes (NoQos, 0, 0, 0) in p.

(* Calls of a new arbitrator, in the order of time *)
Inductive wtrace (link : Z) (lanes : list (sel * Z * Z * Z)) : list call -> wrr -> Prop :=
| wt_new : wtrace link lanes [] (wrr_init link lanes)
| wt_insert : forall h a t p, wtrace link lanes h a -> clock h <= t -> (s_lane p < length lanes)%nat ->
    0 <= s_bytes p -> wtrace link lanes (Inserted t p :: h) (wrr_insert t p a)
| wt_credit : forall h a l n, wtrace link lanes h a -> (l < length lanes)%nat -> 0 <= n ->
    wtrace link lanes (Credited l n :: h) (wrr_credit l n a)
| wt_pop : forall h a t tie p a', wtrace link lanes h a -> clock h <= t -> wrr_empty a = false ->
    wrr_pop t tie a = Some (p, a') -> wtrace link lanes (Popped t p :: h) a'.

(* Credits left for a lane; the packets left on it, oldest first *)
Definition left_over (lanes : list (sel * Z * Z * Z)) (h : list call) (l : nat) : Z :=
  nth l (lane_credits lanes) 0 + given l h - bsum (on l (map snd (popped h))).
Definition queued (h : list call) (l : nat) (q : list spkt) : Prop :=
  on l (inserted h) = on l (map snd (popped h)) ++ q.
(* The oldest packet of the lane fits the credits. *)
Definition could_send (lanes : list (sel * Z * Z * Z)) (h : list call) (l : nat) : Prop :=
  exists q r, queued h l (q :: r) /\ s_bytes q <= left_over lanes h l.

Record sensible (link : Z) (lanes : list (sel * Z * Z * Z)) : Prop := {
  sb_link : 0 <= link;
  sb_cred : forall c, In c (lane_credits lanes) -> 0 <= c;
  sb_delay : forall l, 0 <= lane_delay lanes l
}.

(* ---------- facts about traces ---------- *)

Section Trace.
Variable link : Z.
Variable lanes : list (sel * Z * Z * Z).
Hypothesis SB : sensible link lanes.
Notation n := (length lanes).
Notation trace := (wtrace link lanes).

Definition static (v w : wlane) : Prop :=
  wl_sel v = wl_sel w /\ wl_delay v = wl_delay w /\ wl_prio v = wl_prio w.

Lemma trace_ok : forall h a, trace h a -> wrr_ok n a /\
  (forall l, wrr_purse a l = left_over lanes h l) /\ (forall l, queued h l (wl_pending (wl a l))).
Proof.
  induction 1 as [|h a t p H IH T SL B|h a l c H IH SL C|h a t tie p a' H IH T E P].
  - destruct (wrr_start link lanes (sb_cred _ _ SB)) as [H1 [H2 [H3 H4]]]. split; [exact H1|]. split.
    + intro l. rewrite H3. unfold left_over. cbn. lia.
    + intro l. pose proof (H4 l) as W. unfold wrr_waiting, unpaid, inq in W. cbn in W. unfold queued. cbn. exact (eq_sym W).
  - destruct IH as [O [PU Q]]. destruct (l_insert _ _ _ _ _ _ (wrr_lawful n) a t p O SL B) as [O' [_ [PU' _]]].
    destruct (ord_insert _ _ _ _ _ (wrr_orderly n) a t p O SL B Logic.I) as [_ OR].
    split; [exact O'|]. split.
    + intro l. exact (eq_trans (PU' l) (PU l)).
    + intro l. unfold queued in *. cbn [inserted popped]. rewrite on_app, Q, <- app_assoc. f_equal. symmetry. exact (OR l).
  - destruct IH as [O [PU Q]]. destruct (l_credit _ _ _ _ _ _ (wrr_lawful n) a l c O SL C) as [O' [_ [PU' _]]].
    destruct (ord_credit _ _ _ _ _ (wrr_orderly n) a l c O SL C) as [_ OR].
    split; [exact O'|]. split.
    + intro k. refine (eq_trans (PU' k) _). rewrite PU. unfold left_over. cbn [given popped]. lia.
    + intro k. unfold queued in *. cbn [inserted popped]. rewrite Q. f_equal. symmetry. exact (OR k).
  - destruct IH as [O [PU Q]].
    destruct (l_pop _ _ _ _ _ _ (wrr_lawful n) a t tie O E) as [p0 [a0 [P0 [O' [_ [_ [_ [PU' _]]]]]]]].
    cbn in P0. rewrite P in P0. injection P0 as <- <-.
    destruct (ord_pop _ _ _ _ _ (wrr_orderly n) a t tie p a' O E P) as [_ [_ [_ OR]]].
    split; [exact O'|]. split.
    + intro k. rewrite PU', PU. unfold left_over. cbn [given popped]. rewrite map_app, on_app, bsum_app. cbn [map snd].
      rewrite on_one. destruct (Nat.eqb (s_lane p) k); cbn; lia.
    + intro k. unfold queued in *. cbn [inserted popped]. rewrite Q, map_app, on_app, <- app_assoc. f_equal. exact (OR k).
Qed.

Lemma queued_det : forall h l q q', queued h l q -> queued h l q' -> q = q'.
Proof. unfold queued. intros h l q q' H H'. rewrite H in H'. apply app_inv_head in H'. exact H'. Qed.

Lemma could_send_inq : forall h a l, trace h a -> (could_send lanes h l <-> inq a l = true).
Proof.
  intros h a l H. destruct (trace_ok h a H) as [O [PU Q]]. pose proof (wo_lane _ _ O l) as [A1 [A2 A3]].
  unfold could_send. split.
  - intros [q [r [QQ LE]]]. rewrite (queued_det _ _ _ _ (Q l) QQ) in *.
    rewrite <- PU in LE. unfold wrr_purse in LE. rewrite (queued_det _ _ _ _ (Q l) QQ) in LE.
    destruct A3 as [[_ B]|[_ [B C]]]; [exact B|]. rewrite B in LE. cbn in LE. lia.
  - intro I. destruct (inq_lt n a l O I) as [_ [_ [q [r E]]]]. exists q, r. specialize (Q l). rewrite E in Q.
    split; [exact Q|]. rewrite <- PU. unfold wrr_purse. rewrite I, E. cbn. lia.
Qed.

(* ---------- what each call does to type, delay, priority and next_free ---------- *)

Definition shape (a : wrr) : Prop := w_link a = link /\
  (forall l, wl_sel (wl a l) = lane_type lanes l /\ wl_delay (wl a l) = lane_delay lanes l /\ wl_prio (wl a l) = lane_prio lanes l) /\
  (forall l, In l (w_cap a) -> lane_type lanes l = BwMax).

Lemma shape_set : forall a l v, shape a -> (l < length (w_vls a))%nat -> static v (wl a l) -> shape (set_wl a l v).
Proof.
  intros a l v [S1 [S2 S3]] H [V1 [V2 V3]]. split; [exact S1|]. split; [|exact S3].
  intro k. rewrite wl_set by exact H. destruct (Nat.eqb_spec k l) as [->|]; [|apply S2].
  rewrite V1, V2, V3. apply S2.
Qed.

Lemma shape_queue : forall a l, shape a -> shape (to_queue a l).
Proof. intros a l [S1 [S2 S3]]. split; [exact S1|]. split; [exact S2|exact S3]. Qed.

Lemma shape_cap : forall a l, shape a -> lane_type lanes l = BwMax -> shape (to_cap a l).
Proof.
  intros a l [S1 [S2 S3]] H. split; [exact S1|]. split; [exact S2|].
  cbn. intros k K. apply in_app_or in K as [K|[<-|[]]]; auto.
Qed.

Lemma static_refl : forall v, static v v. Proof. repeat split. Qed.

Lemma len_set : forall a l v, length (w_vls (set_wl a l v)) = length (w_vls a).
Proof. intros. cbn. apply set_nth_length. Qed.

(* next_free of lane l after a call at time t: unchanged, or at least t *)
Definition moved (a a' : wrr) (t : Z) (l : nat) : Prop := wl_next (wl a' l) = wl_next (wl a l) \/ t <= wl_next (wl a' l).

Lemma insert_shape : forall a t p, shape a -> (s_lane p < length (w_vls a))%nat -> shape (wrr_insert t p a).
Proof.
  intros a t p S H. unfold wrr_insert. set (l := s_lane p) in *. set (v := wl a l).
  assert (K : forall a1, shape a1 -> length (w_vls a1) = length (w_vls a) ->
    shape (set_wl a1 l (set_pending (wl a1 l) (wl_pending v ++ [p])))).
  { intros a1 S1 E1. apply shape_set; [exact S1|lia|repeat split]. }
  assert (ST : forall w b, static w v -> shape b -> b = set_wl a l w -> shape b) by auto.
  destruct (wl_pending v) as [|x q] eqn:P.
  - destruct (s_bytes p <=? wl_credits v).
    + assert (E : shape (wrr_enter t p a) /\ length (w_vls (wrr_enter t p a)) = length (w_vls a)).
      { unfold wrr_enter. fold l. set (w := add_wcredits (wl a l) (- s_bytes p)).
        destruct S as [S1 [S2 S3]]. pose proof (proj1 (S2 l)) as T. change (wl_sel (wl a l)) with (wl_sel w) in T.
        assert (S0 : shape a) by (repeat split; try apply S2; auto).
        destruct (wl_sel w) eqn:W.
        - split; [apply shape_queue, shape_set; auto; repeat split|cbn; apply set_nth_length].
        - destruct (t <? wl_next w); (split; [|cbn; apply set_nth_length]).
          + apply shape_cap; [|congruence]. apply shape_set; auto. repeat split.
          + apply shape_queue, shape_set; auto. repeat split.
        - split; [apply shape_queue, shape_set; auto; repeat split|cbn; apply set_nth_length]. }
      apply (K _ (proj1 E) (proj2 E)).
    + apply K; [apply shape_set; auto; repeat split|apply len_set].
  - apply (K a S eq_refl).
Qed.

Lemma credit_shape : forall a l c, shape a -> (l < length (w_vls a))%nat -> shape (wrr_credit l c a).
Proof.
  intros a l c S H. unfold wrr_credit. set (v := add_wcredits (wl a l) c).
  assert (S1 : shape (set_wl a l v)) by (apply shape_set; auto; repeat split).
  destruct (wl_stalled v); [|exact S1]. destruct (wl_pending v) as [|p r]; [exact S1|].
  destruct (s_bytes p <=? wl_credits v); [|exact S1].
  set (v2 := set_stalled (add_wcredits v (- s_bytes p)) false).
  assert (S2 : shape (set_wl (set_wl a l v) l v2)).
  { apply shape_set; [exact S1|rewrite len_set; exact H|]. rewrite wl_set by exact H. rewrite Nat.eqb_refl. repeat split. }
  pose proof (proj1 (proj1 (proj2 S) l)) as T. change (wl_sel (wl a l)) with (wl_sel v) in T.
  destruct (wl_sel v); [apply shape_queue|apply shape_cap; [|congruence]|apply shape_queue]; exact S2.
Qed.

Lemma choose_shape : forall a tie l a1, shape a -> choose tie a = Some (l, a1) -> shape a1 /\ w_vls a1 = w_vls a.
Proof.
  intros a tie l a1 [S1 [S2 S3]] H. unfold choose in H. destruct (w_queue a) as [|x q].
  - destruct (top (cap_before a) tie (w_cap a)) as [m|]; [|discriminate]. injection H as <- <-.
    split; [|reflexivity]. split; [exact S1|]. split; [exact S2|]. cbn. intros k K. apply in_remove in K. apply S3, K.
  - destruct (top (queue_before a) tie (x :: q)) as [m|]; [|discriminate]. injection H as <- <-.
    split; [|reflexivity]. split; [exact S1|]. split; [exact S2|exact S3].
Qed.

Lemma release_shape : forall t a, shape a -> shape (release t a).
Proof.
  intros t a [S1 [S2 S3]]. split; [exact S1|]. split; [exact S2|]. cbn. intros k K. apply filter_In in K. apply S3, K.
Qed.

Lemma next_shape : forall a t l p, shape a -> (l < length (w_vls a))%nat -> shape (wrr_next t l p a).
Proof.
  intros a t l p S H. unfold wrr_next. set (v := wl a l).
  pose proof (proj1 (proj1 (proj2 S) l)) as T. fold v in T.
  destruct (wl_sel v) eqn:E; destruct (s_bytes p <=? wl_credits v);
    first [apply shape_queue, shape_set | apply shape_set | apply shape_cap; [apply shape_set|congruence] ];
    auto; repeat split.
Qed.

Lemma pop_shape : forall a t tie p a', shape a -> (forall l, inq a l = true -> (l < length (w_vls a))%nat) -> NoDup (entries a) ->
  wrr_pop t tie a = Some (p, a') -> shape a'.
Proof.
  intros a t tie p a' S LT ND H. unfold wrr_pop in H.
  destruct (choose tie (release t a)) as [[l a1]|] eqn:C; [|discriminate].
  destruct (choose_shape _ _ _ _ (release_shape t a S) C) as [S1 V].
  assert (NE : entries (release t a) <> []).
  { intro X. unfold entries in X. apply app_eq_nil in X as [X1 X2]. unfold choose in C. rewrite X1, X2 in C.
      destruct (top _ _ []) as [z|] eqn:TZ in C; [|discriminate]. apply top_spec in TZ as [[] _]. }
  assert (L : (l < length (w_vls a))%nat).
  { apply LT. pose proof (release_entries t a) as P.
    destruct (choose_spec (release t a) tie (Permutation_NoDup (Permutation_sym P) ND) NE)
      as [l' [a1' [C1 [_ [_ C4]]]]]. rewrite C in C1. injection C1 as <- <-.
    apply inq_in. apply (Permutation_in _ P). apply (Permutation_in _ (Permutation_sym C4)). left. reflexivity. }
  destruct (wl_pending (wl a1 l)) as [|x r]; [discriminate|]. injection H as <- <-.
  set (v := set_pending (wl a1 l) r). set (v1 := match wl_sel v with BwMax => advance_max t (w_link a) x v | _ => v end).
  assert (V1 : static v1 (wl a1 l)) by (unfold v1; destruct (wl_sel v); repeat split).
  assert (L1 : (l < length (w_vls a1))%nat) by (rewrite V; exact L).
  pose proof (shape_set a1 l v1 S1 L1 V1) as S2.
  destruct r; [exact S2|]. apply next_shape; [exact S2|]. rewrite len_set. exact L1.
Qed.

Lemma trace_shape : forall h a, trace h a -> shape a.
Proof.
  induction 1 as [|h a t p H IH T SL B|h a l c H IH SL C|h a t tie p a' H IH T E P].
  - split; [reflexivity|]. split; [|intros l []]. intro l. unfold lane_type, lane_delay, lane_prio.
    set (mk := fun x : sel * Z * Z * Z => let '(s, d, pr, c) := x in
       {| wl_sel := s; wl_delay := d; wl_prio := pr; wl_stalled := false; wl_next := 0;
          wl_credits := c; wl_pending := [] |}).
    assert (F : wl (wrr_init link lanes) l = mk (nth l lanes (NoQos, 0, 0, 0))).
    { unfold wl, wrr_init. cbn. change no_wlane with (mk (NoQos, 0, 0, 0)). apply map_nth. }
    rewrite F. destruct (nth l lanes (NoQos, 0, 0, 0)) as [[[? ?] ?] ?]. repeat split.
  - apply insert_shape; [exact IH|]. rewrite (wo_len _ _ (proj1 (trace_ok _ _ H))). exact SL.
  - apply credit_shape; [exact IH|]. rewrite (wo_len _ _ (proj1 (trace_ok _ _ H))). exact SL.
  - destruct (trace_ok _ _ H) as [O _]. apply (pop_shape a t tie p a' IH); [|apply (wo_nodup _ _ O)|exact P].
    intros l I. rewrite (wo_len _ _ O). apply (inq_lt n a l O I).
Qed.

(* What a pop does, in terms of the lanes before it *)
Lemma pop_form : forall h a t tie p a', trace h a -> wrr_empty a = false -> wrr_pop t tie a = Some (p, a') ->
  let l := s_lane p in
  exists a1 r, choose tie (release t a) = Some (l, a1) /\ w_vls a1 = w_vls a /\ shape a1 /\ inq a l = true /\ (l < length (w_vls a))%nat /\ wl_pending (wl a l) = p :: r /\ let v := set_pending (wl a l) r in
    let v1 := match wl_sel v with BwMax => advance_max t link p v | _ => v end in
    let a2 := set_wl a1 l v1 in
    a' = match r with [] => a2 | q :: _ => wrr_next t l q a2 end.
Proof.
  intros h a t tie p a' H E P l. destruct (trace_ok h a H) as [O [_ Q]]. pose proof (trace_shape h a H) as SH.
  unfold wrr_pop in P. destruct (choose tie (release t a)) as [[l0 a1]|] eqn:C; [|discriminate].
  destruct (choose_shape _ _ _ _ (release_shape t a SH) C) as [S1 V].
  assert (V' : w_vls a1 = w_vls a) by exact V.
  assert (W : wl a1 l0 = wl a l0) by (unfold wl; rewrite V'; reflexivity).
  destruct (wl_pending (wl a1 l0)) as [|x r] eqn:PE; [discriminate|]. injection P as <- <-.
  rewrite W in PE. pose proof (wo_lane _ _ O l0) as [_ [B _]]. rewrite PE in B.
  destruct (B x (or_introl eq_refl)) as [B1 [B2 _]].
  subst l0.
  exists a1, r. split; [reflexivity|]. split; [exact V'|]. split; [exact S1|]. split.
  - apply inq_in. pose proof (release_entries t a) as PR.
    assert (NE : entries (release t a) <> []).
    { intro X. unfold entries in X. apply app_eq_nil in X as [X1 X2]. unfold choose in C. rewrite X1, X2 in C.
      destruct (top _ _ []) as [z|] eqn:TZ in C; [|discriminate]. apply top_spec in TZ as [[] _]. }
    destruct (choose_spec (release t a) tie (Permutation_NoDup (Permutation_sym PR) (wo_nodup _ _ O)) NE)
      as [l' [a1' [C1 [_ [_ C4]]]]]. rewrite C in C1. injection C1 as <- <-.
    apply (Permutation_in _ PR). apply (Permutation_in _ (Permutation_sym C4)). left. reflexivity.
  - split; [rewrite (wo_len _ _ O); exact B2|]. split; [exact PE|]. cbn zeta. rewrite W.
    rewrite (proj1 SH). reflexivity.
Qed.

Lemma pop_choice : forall h a t tie p a', trace h a -> wrr_empty a = false -> wrr_pop t tie a = Some (p, a') ->
  let l := s_lane p in inq a l = true /\
  ((In l (w_queue a) \/ In l (w_cap a) /\ wl_next (wl a l) <= t) /\
     (forall m, In m (w_queue a) \/ In m (w_cap a) /\ wl_next (wl a m) <= t -> queue_before a m l = false) \/
   (In l (w_cap a) /\ t < wl_next (wl a l) /\ forall m, inq a m = true -> In m (w_cap a) /\ t < wl_next (wl a m))).
Proof.
  intros h a t tie p a' H E P l. destruct (trace_ok h a H) as [O [_ Q]].
  destruct (pop_changes n t tie a O E) as [l0 [p1 [r [a1 [H1 [H2 [H3 [H4 H5]]]]]]]].
  rewrite P in H1. injection H1 as <- <-.
  assert (SL : s_lane p = l0).
  { pose proof (wo_lane _ _ O l0) as [_ [B _]]. rewrite H4 in B. apply (B p). left. reflexivity. }
  fold l in SL. subst l0. split; [exact H2|].
  unfold wrr_pop in P. destruct (choose tie (release t a)) as [[l' a1]|] eqn:C; [|discriminate].
  assert (LL : l' = l).
  { destruct (wl_pending (wl a1 l')) as [|x q] eqn:PE; [discriminate|]. injection P as <- _.
    destruct (choose_shape _ _ _ _ (release_shape t a (trace_shape _ _ H)) C) as [_ V].
    assert (W : wl a1 l' = wl a l') by (unfold wl; rewrite V; reflexivity). rewrite W in PE.
    pose proof (wo_lane _ _ O l') as [_ [B _]]. rewrite PE in B. symmetry. apply (B x). left. reflexivity. }
  subst l'. clear P H5.
  assert (QQ : forall m, In m (w_queue (release t a)) <-> In m (w_queue a) \/ In m (w_cap a) /\ wl_next (wl a m) <= t).
  { intro m. cbn. rewrite in_app_iff, filter_In. rewrite Z.leb_le. tauto. }
  assert (CC : forall m, In m (w_cap (release t a)) <-> In m (w_cap a) /\ t < wl_next (wl a m)).
  { intro m. cbn. rewrite filter_In. split; intros [A B]; (split; [exact A|]); lia. }
  unfold choose in C. destruct (w_queue (release t a)) as [|x q] eqn:WQ.
  - right. destruct (top (cap_before (release t a)) tie (w_cap (release t a))) as [m|] eqn:T; [|discriminate].
    injection C as <- _. apply top_spec in T as [T _]. apply CC in T. destruct T as [T1 T2].
    split; [exact T1|]. split; [exact T2|]. intros k K. apply inq_in in K. unfold entries in K. apply in_app_or in K.
    destruct (Z.leb_spec (wl_next (wl a k)) t) as [LE|GT].
    + exfalso. assert (X : In k []); [|destruct X]. apply QQ. destruct K; auto.
    + destruct K as [K|K]; [|auto]. exfalso. assert (X : In k []); [|destruct X]. apply QQ. auto.
  - left. destruct (top (queue_before (release t a)) tie (x :: q)) as [m|] eqn:T; [|discriminate].
    injection C as <- _. apply top_spec in T as [T1 T2]. split; [apply QQ; exact T1|].
    intros k K. apply (T2 k). apply QQ. exact K.
Qed.

(* ---------- next_free of a capped lane ---------- *)

Lemma insert_next : forall a t p l, (s_lane p < length (w_vls a))%nat -> shape a ->
  let f := wl_next (wl a l) in
  wl_next (wl (wrr_insert t p a) l) =
  if Nat.eqb l (s_lane p) then
    match wl_pending (wl a l) with
    | [] => if s_bytes p <=? wl_credits (wl a l) then
              match lane_type lanes l with
              | NoQos => max_u64
              | BwMin => t + s_bytes p * lane_delay lanes l
              | BwMax => Z.max t f
              end
            else f
    | _ => f
    end
  else f.
Proof.
  intros a t p l H S. cbn zeta. unfold wrr_insert. set (v := wl a (s_lane p)).
  destruct S as [S1 [S2 S3]]. pose proof (S2 (s_lane p)) as [T1 [T2 T3]]. fold v in T1, T2, T3.
  assert (K : forall a1, length (w_vls a1) = length (w_vls a) ->
    wl_next (wl (set_wl a1 (s_lane p) (set_pending (wl a1 (s_lane p)) (wl_pending v ++ [p]))) l) = wl_next (wl a1 l)).
  { intros a1 E. rewrite wl_set by lia. destruct (Nat.eqb_spec l (s_lane p)) as [->|]; reflexivity. }
  destruct (Nat.eqb_spec l (s_lane p)) as [->|NE].
  - fold v. destruct (wl_pending v) as [|x q] eqn:P.
    + destruct (s_bytes p <=? wl_credits v).
      * unfold wrr_enter. fold v. set (w := add_wcredits v (- s_bytes p)).
        change (wl_sel w) with (wl_sel v). change (wl_next w) with (wl_next v). change (wl_delay w) with (wl_delay v).
        rewrite T1. destruct (lane_type lanes (s_lane p)).
        -- rewrite K by (cbn; apply set_nth_length). unfold wl. cbn [w_vls to_queue set_wl].
           rewrite nth_set_nth by exact H. rewrite Nat.eqb_refl. cbn. rewrite T2. reflexivity.
        -- destruct (Z.ltb_spec t (wl_next v));
             (rewrite K by (cbn; apply set_nth_length); unfold wl; cbn [w_vls to_cap to_queue set_wl];
              rewrite nth_set_nth by exact H; rewrite Nat.eqb_refl; cbn; lia).
        -- rewrite K by (cbn; apply set_nth_length). unfold wl. cbn [w_vls to_queue set_wl].
           rewrite nth_set_nth by exact H. rewrite Nat.eqb_refl. reflexivity.
      * rewrite K by apply len_set. rewrite wl_set by exact H. rewrite Nat.eqb_refl. reflexivity.
    + apply (K a eq_refl).
  - destruct (wl_pending v) as [|x q] eqn:P; [|apply (K a eq_refl)].
    destruct (s_bytes p <=? wl_credits v).
    + unfold wrr_enter. fold v. set (w := add_wcredits v (- s_bytes p)).
      destruct (wl_sel w); [| destruct (t <? wl_next w) | ];
        (rewrite K by (cbn; apply set_nth_length); unfold wl; cbn [w_vls to_queue to_cap set_wl];
         rewrite nth_set_nth by exact H; destruct (Nat.eqb_spec l (s_lane p)); [congruence|reflexivity]).
    + rewrite K by apply len_set. rewrite wl_set by exact H.
      destruct (Nat.eqb_spec l (s_lane p)) as [->|]; [congruence|reflexivity].
Qed.

(* A capped lane in port_queue_ after a call *)
Lemma insert_queue : forall a t p l, shape a -> lane_type lanes l = BwMax -> (s_lane p < length (w_vls a))%nat ->
  In l (w_queue (wrr_insert t p a)) -> In l (w_queue a) \/ wl_next (wl (wrr_insert t p a) l) = t.
Proof.
  intros a t p l S M H I.
  pose proof (insert_next a t p l H S) as N. cbn zeta in N.
  unfold wrr_insert in I. set (v := wl a (s_lane p)) in *.
  pose proof (proj1 (proj1 (proj2 S) (s_lane p))) as T1. fold v in T1.
  destruct (wl_pending v) as [|x q] eqn:P; [|left; exact I].
  destruct (s_bytes p <=? wl_credits v) eqn:C; [|left; exact I].
  assert (K : In l (w_queue (wrr_enter t p a))) by exact I. clear I.
  unfold wrr_enter in K. fold v in K. set (w := add_wcredits v (- s_bytes p)) in K.
  change (wl_sel w) with (wl_sel v) in K. change (wl_next w) with (wl_next v) in K.
  destruct (wl_sel v) eqn:W.
  - cbn in K. apply in_app_or in K as [K|[<-|[]]]; [left; exact K|congruence].
  - destruct (Z.ltb_spec t (wl_next v)); [left; exact K|].
    cbn in K. apply in_app_or in K as [K|[<-|[]]]; [left; exact K|right].
    rewrite N, Nat.eqb_refl. fold v. rewrite P, C, M. lia.
  - cbn in K. apply in_app_or in K as [K|[<-|[]]]; [left; exact K|congruence].
Qed.

Lemma credit_queue : forall a l0 c l, shape a -> lane_type lanes l = BwMax ->
  In l (w_queue (wrr_credit l0 c a)) -> In l (w_queue a).
Proof.
  intros a l0 c l S M I. unfold wrr_credit in I. set (v := add_wcredits (wl a l0) c) in *.
  destruct (wl_stalled v); [|exact I]. destruct (wl_pending v) as [|p r]; [exact I|].
  destruct (s_bytes p <=? wl_credits v); [|exact I].
  pose proof (proj1 (proj1 (proj2 S) l0)) as T. change (wl_sel (wl a l0)) with (wl_sel v) in T.
  destruct (wl_sel v); cbn in I.
  - apply in_app_or in I as [I|[<-|[]]]; [exact I|congruence].
  - exact I.
  - apply in_app_or in I as [I|[<-|[]]]; [exact I|congruence].
Qed.

Lemma credit_next : forall a l0 c l, (l0 < length (w_vls a))%nat -> wl_next (wl (wrr_credit l0 c a) l) = wl_next (wl a l).
Proof.
  intros a l0 c l H. unfold wrr_credit. set (v := add_wcredits (wl a l0) c).
  assert (K1 : wl_next (wl (set_wl a l0 v) l) = wl_next (wl a l)).
  { rewrite wl_set by exact H. destruct (Nat.eqb_spec l l0) as [->|]; reflexivity. }
  destruct (wl_stalled v); [|exact K1]. destruct (wl_pending v) as [|p r]; [exact K1|].
  destruct (s_bytes p <=? wl_credits v); [|exact K1].
  set (v2 := set_stalled (add_wcredits v (- s_bytes p)) false).
  assert (K2 : wl_next (wl (set_wl (set_wl a l0 v) l0 v2) l) = wl_next (wl a l)).
  { rewrite wl_set by (rewrite len_set; exact H). destruct (Nat.eqb_spec l l0) as [->|]; [reflexivity|exact K1]. }
  destruct (wl_sel v); exact K2.
Qed.

Lemma next_next : forall a t l0 p l, (l0 < length (w_vls a))%nat ->
  wl_next (wl (wrr_next t l0 p a) l) = wl_next (wl a l) \/
  l = l0 /\ (wl_sel (wl a l0) = NoQos /\ wl_next (wl (wrr_next t l0 p a) l) = t \/
    wl_sel (wl a l0) = BwMin /\ wl_next (wl (wrr_next t l0 p a) l) = t + s_bytes p * wl_delay (wl a l0)).
Proof.
  intros a t l0 p l H. unfold wrr_next. set (v := wl a l0).
  destruct (Nat.eq_dec l l0) as [->|NE].
  - destruct (wl_sel v) eqn:E; destruct (s_bytes p <=? wl_credits v);
      unfold to_queue, to_cap, set_wl, wl; cbn [w_vls]; rewrite nth_set_nth by exact H; rewrite Nat.eqb_refl; cbn; auto.
  - left. destruct (wl_sel v) eqn:E; destruct (s_bytes p <=? wl_credits v);
      unfold to_queue, to_cap, set_wl, wl; cbn [w_vls]; rewrite nth_set_nth by exact H;
      (destruct (Nat.eqb_spec l l0); [congruence|reflexivity]).
Qed.

(* The times a pop sets *)
Lemma pop_next : forall h a t tie p a' l, trace h a -> clock h <= t -> wrr_empty a = false -> wrr_pop t tie a = Some (p, a') ->
  let f := wl_next (wl a l) in let f' := wl_next (wl a' l) in
  if Nat.eqb l (s_lane p) then
    match lane_type lanes l with
    | BwMax => f' = t + s_bytes p * link + Z.max 0 (s_bytes p * lane_delay lanes l - Z.max 0 (t - f))
    | BwMin => f' = f /\ queued (Popped t p :: h) l [] \/
        exists q r, queued (Popped t p :: h) l (q :: r) /\ f' = t + s_bytes q * lane_delay lanes l
    | NoQos => f' = f \/ f' = t
    end
  else f' = f.
Proof.
  intros h a t tie p a' l H T E P f f'.
  destruct (trace_ok _ _ (wt_pop _ _ _ _ _ _ _ _ H T E P)) as [_ [_ Q']]. specialize (Q' l).
  pose proof (trace_shape h a H) as [SH1 [SH2 SH3]]. destruct (SH2 (s_lane p)) as [T1 [T2 T3]].
  destruct (trace_ok h a H) as [O _].
  destruct (pop_changes (length lanes) t tie a O E) as [l0 [p1 [r1 [a1' [HH1 [HH2 [HH3 [HH4 HH5]]]]]]]].
  rewrite P in HH1. injection HH1 as <- <-.
  destruct (pop_form h a t tie p a' H E P) as [a1 [r [C1 [C2 [C3 [C4 [C5 [C6 C7]]]]]]]]. cbn zeta in C7.
  assert (L0 : l0 = s_lane p).
  { pose proof (wo_lane _ _ O l0) as [_ [B _]]. rewrite HH4 in B. symmetry. apply (B p). left. reflexivity. }
  subst l0. rewrite C6 in HH4. injection HH4 as <-.
  set (v := set_pending (wl a (s_lane p)) r) in C7.
  change (wl_sel v) with (wl_sel (wl a (s_lane p))) in C7. rewrite T1 in C7.
  set (v1 := match lane_type lanes (s_lane p) with BwMax => advance_max t link p v | _ => v end) in C7.
  assert (L1 : (s_lane p < length (w_vls a1))%nat) by (rewrite C2; exact C5).
  assert (W : forall k, wl (set_wl a1 (s_lane p) v1) k = if Nat.eqb k (s_lane p) then v1 else wl a k).
  { intro k. rewrite wl_set by exact L1. destruct (Nat.eqb k (s_lane p)); [reflexivity|]. unfold wl. rewrite C2. reflexivity. }
  assert (PL : wl_pending (wl a' (s_lane p)) = r).
  { destruct r as [|x r']; [apply (ch_pend _ _ _ _ _ _ _ HH5)|].
    destruct (s_bytes x <=? wl_credits (wl a (s_lane p))); apply (ch_pend _ _ _ _ _ _ _ HH5). }
  assert (G : f' = wl_next (wl (set_wl a1 (s_lane p) v1) l) \/
    l = s_lane p /\ exists q r', r = q :: r' /\ (lane_type lanes l = NoQos /\ f' = t \/
       lane_type lanes l = BwMin /\ f' = t + s_bytes q * lane_delay lanes l)).
  { unfold f'. rewrite C7. destruct r as [|q r']; [left; reflexivity|].
    destruct (next_next (set_wl a1 (s_lane p) v1) t (s_lane p) q l) as [N|[-> N]].
    - rewrite len_set. exact L1.
    - left. exact N.
    - right. split; [reflexivity|]. exists q, r'. split; [reflexivity|]. rewrite W, Nat.eqb_refl in N.
      assert (Y1 : wl_sel v1 = lane_type lanes (s_lane p)).
      { unfold v1. destruct (lane_type lanes (s_lane p)) eqn:LT; cbn; congruence. }
      assert (Y2 : wl_delay v1 = lane_delay lanes (s_lane p)).
      { unfold v1. destruct (lane_type lanes (s_lane p)) eqn:LT; cbn; congruence. }
      rewrite Y1, Y2 in N. exact N. }
  rewrite W in G. destruct (Nat.eqb_spec l (s_lane p)) as [->|NE].
  - destruct (lane_type lanes (s_lane p)) eqn:LT.
    + destruct G as [G|[_ [q [r' [-> [[X _]|[_ G]]]]]]].
      * destruct r as [|q r'].
        -- left. split; [exact G|]. rewrite PL in Q'. exact Q'.
        -- right. exists q, r'. rewrite PL in Q'. split; [exact Q'|]. unfold f'. rewrite C7.
           unfold wrr_next. rewrite W, Nat.eqb_refl. unfold v1 at 1. cbn [wl_sel]. change (wl_sel v) with (wl_sel (wl a (s_lane p))).
           rewrite T1. change (wl_delay v1) with (wl_delay (wl a (s_lane p))). rewrite T2.
           destruct (s_bytes q <=? wl_credits v1); unfold to_queue, set_wl, wl; cbn [w_vls];
             rewrite nth_set_nth by (rewrite set_nth_length; exact L1); rewrite Nat.eqb_refl; reflexivity.
      * discriminate.
      * right. exists q, r'. rewrite PL in Q'. split; [exact Q'|exact G].
    + destruct G as [G|[_ [q [r' [-> [[X _]|[X _]]]]]]]; [|discriminate|discriminate].
      rewrite G. unfold v1, advance_max. cbn [wl_next set_next wl_delay].
      change (wl_next v) with (wl_next (wl a (s_lane p))). change (wl_delay v) with (wl_delay (wl a (s_lane p))).
      rewrite T2. fold f. destruct (Z.ltb_spec f t).
      * destruct (Z.leb_spec (s_bytes p * lane_delay lanes (s_lane p)) (t - f)); lia.
      * destruct (Z.leb_spec (s_bytes p * lane_delay lanes (s_lane p)) 0); lia.
    + destruct G as [G|[_ [q [r' [-> [[_ G]|[X _]]]]]]]; [left; exact G|right; exact G|discriminate].
  - destruct G as [G|[X _]]; [exact G|contradiction].
Qed.

Lemma pop_queue : forall h a t tie p a' l, trace h a -> wrr_empty a = false -> wrr_pop t tie a = Some (p, a') ->
  lane_type lanes l = BwMax -> In l (w_queue a') -> l <> s_lane p /\ (In l (w_queue a) \/ wl_next (wl a l) <= t).
Proof.
  intros h a t tie p a' l H E P M I.
  destruct (trace_ok h a H) as [O _].
  destruct (pop_form h a t tie p a' H E P) as [a1 [r [C1 [C2 [C3 [C4 [C5 [C6 C7]]]]]]]]. cbn zeta in C7.
  set (v := set_pending (wl a (s_lane p)) r) in C7.
  set (v1 := match wl_sel v with BwMax => advance_max t link p v | _ => v end) in C7.
  assert (L1 : (s_lane p < length (w_vls a1))%nat) by (rewrite C2; exact C5).
  assert (I1 : In l (w_queue a1)).
  { rewrite C7 in I. destruct r as [|q r']; [exact I|]. unfold wrr_next in I.
    rewrite wl_set in I by exact L1. rewrite Nat.eqb_refl in I.
    assert (Y : wl_sel v1 = lane_type lanes (s_lane p)).
    { rewrite <- (proj1 (proj1 (proj2 (trace_shape h a H)) (s_lane p))). unfold v1. destruct (wl_sel v) eqn:X; exact X || reflexivity. }
    destruct (wl_sel v1) eqn:X; destruct (s_bytes q <=? wl_credits v1); try exact I;
      cbn in I; apply in_app_or in I as [I|[<-|[]]]; try exact I; congruence. }
  assert (ND : NoDup (entries (release t a))).
  { apply (Permutation_NoDup (Permutation_sym (release_entries t a))). apply (wo_nodup _ _ O). }
  clear C7 I. unfold choose in C1. destruct (w_queue (release t a)) as [|x q] eqn:WQ.
  - destruct (top (cap_before (release t a)) tie (w_cap (release t a))); [|discriminate].
    injection C1 as _ <-. destruct I1.
  - destruct (top (queue_before (release t a)) tie (x :: q)) as [m|]; [|discriminate]. injection C1 as -> <-.
    change (In l (drop (s_lane p) (x :: q))) in I1. apply in_remove in I1 as [I1 I2]. split; [exact I2|].
    assert (I3 : In l (w_queue (release t a))) by (rewrite WQ; exact I1).
    cbn in I3. apply in_app_or in I3 as [I3|I3]; [left; exact I3|right].
    apply filter_In in I3 as [_ I3]. lia.
Qed.

(* A lane that is not capped is in port_queue_ when it is in a queue. *)
Lemma in_port_queue : forall h a l, trace h a -> lane_type lanes l <> BwMax -> inq a l = true -> In l (w_queue a).
Proof.
  intros h a l H NB I. apply inq_in in I. apply in_app_or in I as [I|I]; [exact I|].
  exfalso. apply NB. apply (trace_shape h a H). exact I.
Qed.
End Trace.
