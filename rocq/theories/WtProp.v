(* C51: the test and wait families of MPI. *)
From Coq Require Import List Bool Arith Lia Sorting.Sorted.
From Verif Require Import WtModel.
Import ListNotations.

(* ---------- specification ---------- *)

(* The handles of the array are live and different. *)
Definition valid (t : table) (hs : list handle) : Prop :=
  (forall j id, nth_error hs j = Some (Some id) -> t id <> None) /\
  (forall i j id, nth_error hs i = Some (Some id) -> nth_error hs j = Some (Some id) -> i = j).

Definition done_at (t : table) (hs : list handle) (j : nat) : Prop :=
  exists id r, nth_error hs j = Some (Some id) /\ t id = Some r /\ rq_done r = true.

(* The requests at the positions sel were handed back to the program: gone and null
   unless persistent.  Nothing else changed. *)
Record reported (t : table) (hs : list handle) (sel : nat -> Prop) (t' : table)
  (hs' : list handle) : Prop := {
  rep_len : length hs' = length hs;
  rep_sel : forall j id r, nth_error hs j = Some (Some id) -> t id = Some r -> sel j ->
    nth_error hs' j = Some (if rq_pers r then Some id else None) /\
    t' id = (if rq_pers r then Some r else None);
  rep_rest : forall j h, nth_error hs j = Some h -> ~ sel j -> nth_error hs' j = Some h;
  rep_tab : forall id, (forall j, sel j -> nth_error hs j <> Some (Some id)) -> t' id = t id
}.

(* The status stored at position j is that of request j. *)
Definition status_at (t : table) (hs : list handle) (ss : list (option nat)) (j : nat) : Prop :=
  exists id r, nth_error hs j = Some (Some id) /\ t id = Some r /\
    nth_error ss j = Some (Some (rq_stat r)).

Definition apply_events (t : table) (evs : list event) : table := fold_left apply_event evs t.

(* ---------- events ---------- *)

Lemma set_same : forall t id v, set t id v id = v.
Proof. intros. unfold set. rewrite Nat.eqb_refl. reflexivity. Qed.
Lemma set_other : forall t id v x, x <> id -> set t id v x = t x.
Proof. intros t id v x N. unfold set. destruct (Nat.eqb_spec x id); [contradiction|reflexivity]. Qed.

(* complete_one acts on each request by itself *)
Lemma complete_one_pt : forall t1 t2 e id, t1 id = t2 id ->
  complete_one t1 e id = complete_one t2 e id.
Proof.
  intros t1 t2 [x s] id E. unfold complete_one. cbn [fst snd].
  destruct (Nat.eq_dec id x) as [->|N].
  - rewrite E. destruct (t2 x) as [r|] eqn:Q; [|congruence].
    destruct (rq_done r); [congruence|]. rewrite !set_same. reflexivity.
  - assert (A : forall t, match t x with
        | Some r => if rq_done r then t else set t x (Some {| rq_done := true; rq_pers := rq_pers r; rq_stat := s |})
        | None => t end id = t id).
    { intro t. destruct (t x) as [r|]; [|reflexivity]. destruct (rq_done r); [reflexivity|].
      apply set_other, N. }
    rewrite !A. exact E.
Qed.

Lemma apply_event_pt : forall e t1 t2 id, t1 id = t2 id -> apply_event t1 e id = apply_event t2 e id.
Proof.
  unfold apply_event. induction e as [|x e IH]; intros t1 t2 id E; cbn [fold_left]; [exact E|].
  apply IH, complete_one_pt, E.
Qed.

Lemma apply_events_pt : forall evs t1 t2 id, t1 id = t2 id ->
  apply_events t1 evs id = apply_events t2 evs id.
Proof.
  unfold apply_events. induction evs as [|x evs IH]; intros t1 t2 id E; cbn [fold_left]; [exact E|].
  apply IH, apply_event_pt, E.
Qed.

Lemma complete_one_done : forall t e id r, t id = Some r -> rq_done r = true ->
  complete_one t e id = Some r.
Proof.
  intros t [x s] id r E D. unfold complete_one; cbn [fst snd].
  destruct (t x) as [q|] eqn:Q; [|exact E]. destruct (rq_done q) eqn:DQ; [exact E|].
  rewrite set_other; [exact E|]. intros ->. congruence.
Qed.

Lemma apply_event_done : forall e t id r, t id = Some r -> rq_done r = true ->
  apply_event t e id = Some r.
Proof.
  unfold apply_event. induction e as [|x e IH]; intros t id r E D; cbn [fold_left]; [exact E|].
  apply IH; [apply complete_one_done; auto|exact D].
Qed.

Lemma apply_events_done : forall evs t id r, t id = Some r -> rq_done r = true ->
  apply_events t evs id = Some r.
Proof.
  unfold apply_events. induction evs as [|x evs IH]; intros t id r E D; cbn [fold_left]; [exact E|].
  apply IH; [apply apply_event_done; auto|exact D].
Qed.

Lemma complete_one_live : forall t e id, complete_one t e id = None <-> t id = None.
Proof.
  intros t [x s] id. unfold complete_one; cbn [fst snd].
  destruct (t x) as [q|] eqn:Q; [|tauto]. destruct (rq_done q); [tauto|].
  destruct (Nat.eq_dec id x) as [->|N].
  - rewrite set_same, Q. split; discriminate.
  - rewrite set_other by exact N. tauto.
Qed.

Lemma apply_event_live : forall e t id, apply_event t e id = None <-> t id = None.
Proof.
  unfold apply_event. induction e as [|x e IH]; intros t id; cbn [fold_left]; [tauto|].
  rewrite IH. apply complete_one_live.
Qed.

Lemma apply_events_live : forall evs t id, apply_events t evs id = None <-> t id = None.
Proof.
  unfold apply_events. induction evs as [|x evs IH]; intros t id; cbn [fold_left]; [tauto|].
  rewrite IH. apply apply_event_live.
Qed.

Lemma apply_events_app : forall a b t, apply_events t (a ++ b) = apply_events (apply_events t a) b.
Proof. intros. unfold apply_events. apply fold_left_app. Qed.

Lemma progress_spec : forall f evs t t1 evs1, progress_until f t evs = Some (t1, evs1) ->
  exists used, evs = used ++ evs1 /\ t1 = apply_events t used /\ f t1 = true.
Proof.
  intros f; induction evs as [|e evs IH]; intros t t1 evs1 H; cbn [progress_until] in H.
  - destruct (f t) eqn:F; [|discriminate]. injection H as <- <-. exists []. auto.
  - destruct (f t) eqn:F.
    + injection H as <- <-. exists []. auto.
    + destruct (IH _ _ _ H) as [used [E1 [E2 E3]]]. exists (e :: used).
      split; [cbn; congruence|]. auto.
Qed.

Lemma valid_events : forall t hs evs, valid t hs -> valid (apply_events t evs) hs.
Proof.
  intros t hs evs [V1 V2]. split; [|exact V2]. intros j id E K.
  apply apply_events_live in K. apply (V1 j id E K).
Qed.

(* ---------- wait, waitall ---------- *)

Lemma do_wait_spec : forall t evs id t' evs' h' s,
  do_wait t evs (Some id) = Some (t', evs', h', s) ->
  exists used r, evs = used ++ evs' /\ apply_events t used id = Some r /\ rq_done r = true /\
    s = Some (rq_stat r) /\ h' = (if rq_pers r then Some id else None) /\
    t' id = (if rq_pers r then Some r else None) /\
    forall x, x <> id -> t' x = apply_events t used x.
Proof.
  intros t evs id t' evs' h' s H. unfold do_wait in H.
  destruct (t id); [|discriminate].
  destruct (progress_until _ t evs) as [[t1 evs1]|] eqn:P; [|discriminate].
  destruct (progress_spec _ _ _ _ _ P) as [used [E1 [E2 E3]]].
  unfold is_complete in E3. destruct (t1 id) as [q|] eqn:Q; [|discriminate].
  unfold finalize in H. destruct (rq_pers q) eqn:PQ; injection H as <- <- <- <-;
    exists used, q; subst t1; rewrite PQ; repeat split; auto.
  - apply set_same.
  - intros x N. apply set_other, N.
Qed.

(* MPI_Wait returns with the request complete, its status, and the handle released
   unless persistent; other requests only see the messages that were handled. *)
Theorem wait_once : forall t evs id t' evs' h' s,
  do_wait t evs (Some id) = Some (t', evs', h', s) ->
  exists used r, evs = used ++ evs' /\ apply_events t used id = Some r /\ rq_done r = true /\
    s = Some (rq_stat r) /\ reported (apply_events t used) [Some id] (eq 0) t' [h'].
Proof.
  intros t evs id t' evs' h' s H.
  destruct (do_wait_spec _ _ _ _ _ _ _ H) as [used [r [E1 [E2 [E3 [E4 [E5 [E6 E7]]]]]]]].
  exists used, r. split; [exact E1|]. split; [exact E2|]. split; [exact E3|].
  split; [exact E4|]. split.
  - reflexivity.
  - intros j x q X Q <-. cbn in X. injection X as <-.
    rewrite E2 in Q. injection Q as <-. split; [cbn; rewrite E5; reflexivity|exact E6].
  - intros j h J N. destruct j; [exfalso; apply N; reflexivity|].
    destruct j; discriminate.
  - intros x X. apply E7. intros ->. apply (X 0 eq_refl). reflexivity.
Qed.
Print Assumptions wait_once.

(* A null request is complete at once. *)
Theorem wait_null : forall t evs, do_wait t evs None = Some (t, evs, None, None).
Proof. reflexivity. Qed.

Lemma valid_tail : forall t h hs, valid t (h :: hs) -> valid t hs.
Proof.
  intros t h hs [V1 V2]. split.
  - intros j id E. apply (V1 (S j) id E).
  - intros i j id A B. assert (S i = S j) by (apply (V2 _ _ id); auto). lia.
Qed.

Lemma valid_notin : forall t id hs j, valid t (Some id :: hs) ->
  nth_error hs j <> Some (Some id).
Proof.
  intros t id hs j [_ V2] E. assert (0 = S j) by (apply (V2 0 (S j) id); auto). lia.
Qed.

Lemma valid_pt : forall t t' hs, valid t hs ->
  (forall j id, nth_error hs j = Some (Some id) -> (t' id = None <-> t id = None)) -> valid t' hs.
Proof.
  intros t t' hs [V1 V2] H. split; [|exact V2]. intros j id E K. apply (V1 j id E).
  apply (H j id E), K.
Qed.

Theorem waitall_all : forall hs t evs t' evs' hs' ss, valid t hs ->
  waitall t evs hs = Some (t', evs', hs', ss) ->
  exists used, evs = used ++ evs' /\
    let t1 := apply_events t used in
    (forall j id, nth_error hs j = Some (Some id) -> done_at t1 hs j /\ status_at t1 hs ss j) /\
    reported t1 hs (fun j => exists id, nth_error hs j = Some (Some id)) t' hs'.
Proof.
  induction hs as [|h hs IH]; intros t evs t' evs' hs' ss V H; cbn [waitall] in H.
  - injection H as <- <- <- <-. exists []. split; [reflexivity|]. cbn. split.
    + intros j id E. destruct j; discriminate.
    + split; auto.
      * intros j id r E. destruct j; discriminate.
  - destruct (do_wait t evs h) as [[[[t1 evs1] h1] s]|] eqn:W; [|discriminate].
    destruct (waitall t1 evs1 hs) as [[[[t2 evs2] r2] ss2]|] eqn:WA; [|discriminate].
    injection H as <- <- <- <-.
    pose proof (valid_tail _ _ _ V) as VT.
    destruct h as [id|].
    + destruct (do_wait_spec _ _ _ _ _ _ _ W) as [u1 [r [E1 [E2 [E3 [E4 [E5 [E6 E7]]]]]]]].
      assert (NI : forall j, nth_error hs j <> Some (Some id)) by (intro j; apply (valid_notin _ _ _ _ V)).
      assert (V1 : valid t1 hs).
      { apply (valid_pt t); [exact VT|]. intros j x X. rewrite E7 by (intros ->; apply (NI j X)).
        apply apply_events_live. }
      destruct (IH _ _ _ _ _ _ V1 WA) as [u2 [F1 [F2 F3]]].
      exists (u1 ++ u2). split; [rewrite <- app_assoc; congruence|]. intro tt. subst tt.
      rewrite apply_events_app.
      assert (PT : forall j x, nth_error hs j = Some (Some x) ->
        apply_events (apply_events t u1) u2 x = apply_events t1 u2 x).
      { intros j x X. apply apply_events_pt. symmetry. apply E7. intros ->. apply (NI j X). }
      assert (D0 : apply_events (apply_events t u1) u2 id = Some r)
        by (apply apply_events_done; auto).
      split.
      * intros j x X. destruct j as [|j].
        -- cbn in X. injection X as <-. split.
           ++ exists id, r. auto.
           ++ exists id, r. subst s. auto.
        -- cbn in X. destruct (F2 j x X) as [[y [q [G1 [G2 G3]]]] [y' [q' [K1 [K2 K3]]]]].
           assert (y = x) by congruence. assert (y' = x) by congruence. subst y y'.
           split; [exists x, q|exists x, q']; repeat split; auto; rewrite (PT j x X); auto.
      * destruct F3 as [L RS RR RT]. split.
        -- cbn. congruence.
        -- intros j x q X Q [y Y]. destruct j as [|j]; cbn [nth_error] in *.
           ++ injection X as <-. rewrite D0 in Q. injection Q as <-. split; [rewrite E5; reflexivity|].
              assert (T2 : t2 id = apply_events t1 u2 id).
              { apply RT. intros j [z Z] K. apply (NI j K). }
              rewrite T2. destruct (rq_pers r).
              ** apply apply_events_done; auto.
              ** apply apply_events_live, E6.
           ++ rewrite (PT j x X) in Q. apply RS; eauto.
        -- intros j x X N. destruct j as [|j]; cbn [nth_error] in *.
           ++ exfalso. apply N. eauto.
           ++ apply RR; auto.
        -- intros x X. assert (x <> id) by (intros ->; apply (X 0); [exists id; reflexivity|reflexivity]).
           rewrite RT.
           ++ apply apply_events_pt, E7. auto.
           ++ intros j [z Z]. apply (X (S j)). exists z. exact Z.
    + cbn in W. injection W as <- <- <- <-.
      destruct (IH _ _ _ _ _ _ VT WA) as [u2 [F1 [F2 F3]]].
      exists u2. split; [exact F1|]. intro tt. subst tt. split.
      * intros j x X. destruct j as [|j]; [discriminate|]. cbn in X.
        destruct (F2 j x X) as [[y [q G]] [y' [q' K]]].
        split; [exists y, q|exists y', q']; auto.
      * destruct F3 as [L RS RR RT]. split.
        -- cbn. congruence.
        -- intros j x q X Q [y Y]. destruct j as [|j]; [discriminate|]. apply RS; eauto.
        -- intros j x X N. destruct j as [|j]; cbn [nth_error] in *; [exact X|]. apply RR; auto.
        -- intros x X. apply RT. intros j [z Z]. apply (X (S j)). exists z. exact Z.
Qed.
Print Assumptions waitall_all.

(* ---------- waitany ---------- *)

Lemma scan_first_some : forall t hs i k id q, scan_first t i hs = Some (k, id, q) ->
  exists j, k = i + j /\ nth_error hs j = Some (Some id) /\ t id = Some q /\ rq_done q = true /\
    forall j', j' < j -> ~ done_at t hs j'.
Proof.
  intros t; induction hs as [|h hs IH]; intros i k id q H; cbn [scan_first] in H; [discriminate|].
  assert (Z : forall h0, (forall r i0, h0 = Some i0 -> t i0 = Some r -> rq_done r = true -> False) ->
     scan_first t (S i) hs = Some (k, id, q) ->
     exists j, k = i + j /\ nth_error (h0 :: hs) j = Some (Some id) /\ t id = Some q /\
       rq_done q = true /\ forall j', j' < j -> ~ done_at t (h0 :: hs) j').
  { intros h0 NO E. destruct (IH _ _ _ _ E) as [j [J1 [J2 [J3 [J4 J5]]]]].
    exists (S j). repeat split; auto; [lia|]. intros [|j'] L [x [r [X1 [X2 X3]]]].
    - cbn in X1. injection X1 as X1. apply (NO r x X1 X2 X3).
    - apply (J5 j'); [lia|]. exists x, r. auto. }
  destruct h as [x|].
  - destruct (t x) as [r|] eqn:T.
    + destruct (rq_done r) eqn:D.
      * injection H as <- <- <-. exists 0. repeat split; auto. intros j' L. lia.
      * apply Z; [|exact H]. intros r0 i0 E1 E2. congruence.
    + apply Z; [|exact H]. intros r0 i0 E1 E2. congruence.
  - apply Z; [|exact H]. discriminate.
Qed.

Lemma set_handle_length : forall hs i h, length (set_handle hs i h) = length hs.
Proof. induction hs as [|x hs IH]; intros [|i] h; cbn; auto. Qed.
Lemma set_handle_same : forall hs i h x, nth_error hs i = Some x ->
  nth_error (set_handle hs i h) i = Some h.
Proof. induction hs as [|y hs IH]; intros [|i] h x E; cbn in *; try discriminate; eauto. Qed.
Lemma set_handle_other : forall hs i h j, j <> i ->
  nth_error (set_handle hs i h) j = nth_error hs j.
Proof.
  induction hs as [|y hs IH]; intros [|i] h [|j] N; cbn; auto; try congruence.
Qed.

Lemma finish_reported : forall t hs i id q t2 h2 s, valid t hs ->
  nth_error hs i = Some (Some id) -> t id = Some q -> finalize t id q = (t2, h2, s) ->
  s = rq_stat q /\ reported t hs (eq i) t2 (set_handle hs i h2).
Proof.
  intros t hs i id q t2 h2 s [V1 V2] E T F. unfold finalize in F.
  assert (H2 : h2 = if rq_pers q then Some id else None) by (destruct (rq_pers q); congruence).
  assert (ID : t2 id = if rq_pers q then Some q else None).
  { destruct (rq_pers q); injection F as <- _ _; [exact T|apply set_same]. }
  assert (O : forall x, x <> id -> t2 x = t x).
  { intros x N. destruct (rq_pers q); injection F as <- _ _; [reflexivity|apply set_other, N]. }
  split; [destruct (rq_pers q); congruence|]. split.
  - apply set_handle_length.
  - intros j x r X R <-. assert (x = id) by congruence. subst x.
    assert (r = q) by congruence. subst r. split; [|exact ID].
    rewrite (set_handle_same _ _ _ _ E), H2. reflexivity.
  - intros j h J N. rewrite set_handle_other by congruence. exact J.
  - intros x X. apply O. intros ->. apply (X i eq_refl E).
Qed.

(* MPI_Waitany hands back exactly one request, the first complete one, once at least
   one is complete. *)
Theorem waitany_one : forall t evs hs t' evs' hs' i s, valid t hs ->
  waitany t evs hs = Some (t', evs', hs', i, s) ->
  exists used, evs = used ++ evs' /\ let t1 := apply_events t used in
    done_at t1 hs i /\ (forall j, j < i -> ~ done_at t1 hs j) /\
    (exists id r, nth_error hs i = Some (Some id) /\ t1 id = Some r /\ s = rq_stat r) /\
    reported t1 hs (eq i) t' hs'.
Proof.
  intros t evs hs t' evs' hs' i s V H. unfold waitany in H.
  assert (G : forall t1 evs1 k id q, valid t1 hs -> scan_first t1 0 hs = Some (k, id, q) ->
     (let '(t2, h2, s0) := finalize t1 id q in Some (t2, evs1, set_handle hs k h2, k, s0)) =
       Some (t', evs', hs', i, s) ->
     evs1 = evs' /\ done_at t1 hs i /\ (forall j, j < i -> ~ done_at t1 hs j) /\
     (exists id r, nth_error hs i = Some (Some id) /\ t1 id = Some r /\ s = rq_stat r) /\
     reported t1 hs (eq i) t' hs').
  { intros t1 evs1 k id q V1 SF K.
    destruct (scan_first_some _ _ _ _ _ _ SF) as [j [J1 [J2 [J3 [J4 J5]]]]]. cbn in J1. subst k.
    destruct (finalize t1 id q) as [[t2 h2] s0] eqn:F.
    destruct (finish_reported _ _ _ _ _ _ _ _ V1 J2 J3 F) as [S1 R1].
    injection K as <- <- <- <- <-. split; [reflexivity|].
    split; [exists id, q; auto|]. split; [exact J5|]. split; [exists id, q; auto|exact R1]. }
  destruct (scan_first t 0 hs) as [[[k id] q]|] eqn:SF.
  - destruct (G t evs k id q V SF H) as [<- [G1 [G2 [G3 G4]]]]. exists []. auto.
  - destruct (nonnull hs) as [|a l] eqn:NN; [discriminate|].
    destruct (progress_until _ t evs) as [[t1 evs1]|] eqn:P; [|discriminate].
    destruct (progress_spec _ _ _ _ _ P) as [used [E1 [E2 E3]]].
    destruct (scan_first t1 0 hs) as [[[k id] q]|] eqn:SF1; [|discriminate].
    assert (V1 : valid t1 hs) by (subst t1; apply valid_events, V).
    destruct (G t1 evs1 k id q V1 SF1 H) as [<- [G1 [G2 [G3 G4]]]].
    exists used. split; [exact E1|]. subst t1. auto.
Qed.
Print Assumptions waitany_one.

(* ---------- waitsome ---------- *)

Lemma done_at_pt : forall t1 t2 hs j, (forall id, nth_error hs j = Some (Some id) -> t1 id = t2 id) ->
  done_at t1 hs j -> done_at t2 hs j.
Proof.
  intros t1 t2 hs j H [id [r [A [B C]]]]. exists id, r. rewrite <- (H id A). auto.
Qed.

Lemma scan_all_spec : forall hs t i t' hs' ix ss, valid t hs ->
  scan_all t i hs = (t', hs', ix, ss) ->
  length ss = length hs /\
  StronglySorted lt ix /\
  (forall k, In k ix <-> exists j, k = i + j /\ done_at t hs j) /\
  (forall j, done_at t hs j -> status_at t hs ss j) /\
  reported t hs (done_at t hs) t' hs'.
Proof.
  induction hs as [|h hs IH]; intros t i t' hs' ix ss V H; cbn [scan_all] in H.
  - injection H as <- <- <- <-. split; [reflexivity|]. split; [constructor|].
    assert (ND : forall j, ~ done_at t [] j).
    { intros j [id [r [E _]]]. destruct j; discriminate. }
    split; [|split; [|split]]; auto.
    + intro k. split; [intros []|]. intros [j [_ D]]. destruct (ND j D).
    + intros j D. destruct (ND j D).
    + intros j id r E. destruct j; discriminate.
  - pose proof (valid_tail _ _ _ V) as VT.
    assert (SKIP : forall t2 r2 ix2 ss2, scan_all t (S i) hs = (t2, r2, ix2, ss2) ->
       ~ done_at t (h :: hs) 0 -> (t2, h :: r2, ix2, None :: ss2) = (t', hs', ix, ss) ->
       length ss = length (h :: hs) /\ StronglySorted lt ix /\
       (forall k, In k ix <-> exists j, k = i + j /\ done_at t (h :: hs) j) /\
       (forall j, done_at t (h :: hs) j -> status_at t (h :: hs) ss j) /\
       reported t (h :: hs) (done_at t (h :: hs)) t' hs').
    { intros t2 r2 ix2 ss2 E N K. injection K as <- <- <- <-.
      destruct (IH t (S i) t2 r2 ix2 ss2 VT E) as [LS [SO [IX [ST RE]]]].
      assert (SH : forall j, done_at t (h :: hs) (S j) <-> done_at t hs j) by (intro j; split; auto).
      split; [cbn; congruence|]. split; [exact SO|]. split; [|split; [|split]].
      - intro k. rewrite IX. split.
        + intros [j [J D]]. exists (S j). split; [lia|]. apply SH, D.
        + intros [[|j] [J D]]; [contradiction|]. exists j. split; [lia|]. apply SH, D.
      - intros [|j] D; [contradiction|]. apply SH, ST in D. destruct D as [id [r G]].
        exists id, r. exact G.
      - cbn. f_equal. apply RE.
      - intros [|j] id r X R D; [contradiction|]. apply (rep_sel _ _ _ _ _ RE j id r X R). apply SH, D.
      - intros [|j] x X D; [exact X|]. apply (rep_rest _ _ _ _ _ RE j x X). intro; apply D, SH; auto.
      - intros id X. apply (rep_tab _ _ _ _ _ RE). intros j D. apply (X (S j)). apply SH, D. }
    destruct h as [id|].
    + destruct (t id) as [q|] eqn:T.
      * destruct (rq_done q) eqn:D.
        -- destruct (finalize t id q) as [[t1 h1] s] eqn:F.
           destruct (scan_all t1 (S i) hs) as [[[t2 r2] ix2] ss2] eqn:SA.
           injection H as <- <- <- <-.
           assert (NI : forall j, nth_error hs j <> Some (Some id)) by (intro j; apply (valid_notin _ _ _ _ V)).
           assert (S1 : s = rq_stat q) by (unfold finalize in F; destruct (rq_pers q); congruence).
           assert (H1 : h1 = if rq_pers q then Some id else None)
             by (unfold finalize in F; destruct (rq_pers q); congruence).
           assert (T1 : t1 id = if rq_pers q then Some q else None).
           { unfold finalize in F. destruct (rq_pers q); injection F as <- _ _; [exact T|apply set_same]. }
           assert (TO : forall x, x <> id -> t1 x = t x).
           { intros x N. unfold finalize in F. destruct (rq_pers q); injection F as <- _ _;
               [reflexivity|apply set_other, N]. }
           assert (PT : forall j x, nth_error hs j = Some (Some x) -> t1 x = t x).
           { intros j x X. apply TO. intros ->. apply (NI j X). }
           assert (V1 : valid t1 hs).
           { apply (valid_pt t); [exact VT|]. intros j x X. rewrite (PT j x X). tauto. }
           destruct (IH t1 (S i) t2 r2 ix2 ss2 V1 SA) as [LS [SO [IX [ST RE]]]].
           assert (SH : forall j, done_at t (Some id :: hs) (S j) <-> done_at t1 hs j).
           { intro j. split; intro DD.
             - apply (done_at_pt t t1 hs j); [|exact DD]. intros x X. symmetry. apply (PT j x X).
             - apply (done_at_pt t1 t hs j) in DD; [exact DD|]. intros x X. apply (PT j x X). }
           assert (D0 : done_at t (Some id :: hs) 0) by (exists id, q; auto).
           split; [cbn; congruence|]. split; [|split; [|split; [|split]]].
           ++ constructor; [exact SO|]. rewrite Forall_forall. intros k K. apply IX in K.
              destruct K as [j [-> _]]. lia.
           ++ intro k. split.
              ** intros [<-|K]; [exists 0; split; [lia|exact D0]|].
                 apply IX in K. destruct K as [j [J DD]]. exists (S j). split; [lia|]. apply SH, DD.
              ** intros [[|j] [J DD]]; [left; lia|]. right. apply IX. exists j. split; [lia|].
                 apply SH, DD.
           ++ intros [|j] DD.
              ** exists id, q. subst s. auto.
              ** apply SH, ST in DD. destruct DD as [x [r [G1 [G2 G3]]]]. exists x, r.
                 rewrite <- (PT j x G1). auto.
           ++ cbn. f_equal. apply RE.
           ++ intros [|j] x r X R DD.
              ** cbn in X. injection X as <-. assert (r = q) by congruence. subst r.
                 split; [cbn; rewrite H1; reflexivity|]. rewrite (rep_tab _ _ _ _ _ RE); [exact T1|].
                 intros j _. apply NI.
              ** cbn in X. rewrite <- (PT j x X) in R.
                 apply (rep_sel _ _ _ _ _ RE j x r X R). apply SH, DD.
           ++ intros [|j] x X DD; [contradiction|].
              apply (rep_rest _ _ _ _ _ RE j x X). intro; apply DD, SH; auto.
           ++ intros x X. rewrite (rep_tab _ _ _ _ _ RE).
              ** apply TO. intros ->. apply (X 0 D0). reflexivity.
              ** intros j DD. apply (X (S j)). apply SH, DD.
        -- destruct (scan_all t (S i) hs) as [[[t2 r2] ix2] ss2] eqn:SA.
           apply (SKIP t2 r2 ix2 ss2); auto.
           intros [x [r [X1 [X2 X3]]]]. cbn in X1. congruence.
      * destruct (scan_all t (S i) hs) as [[[t2 r2] ix2] ss2] eqn:SA.
        apply (SKIP t2 r2 ix2 ss2); auto.
        intros [x [r [X1 [X2 X3]]]]. cbn in X1. congruence.
    + destruct (scan_all t (S i) hs) as [[[t2 r2] ix2] ss2] eqn:SA.
      apply (SKIP t2 r2 ix2 ss2); auto.
      intros [x [r [X1 [X2 X3]]]]. cbn in X1. congruence.
Qed.

Lemma nth_error_same : forall A (l m : list A), (forall j, nth_error l j = nth_error m j) -> l = m.
Proof.
  induction l as [|x l IH]; intros [|y m] H; auto.
  - specialize (H 0). discriminate.
  - specialize (H 0). discriminate.
  - f_equal; [specialize (H 0); cbn in H; congruence|]. apply IH. intro j. apply (H (S j)).
Qed.

Lemma scan_all_none : forall hs t i t' hs' ss, valid t hs ->
  scan_all t i hs = (t', hs', [], ss) -> hs' = hs /\ forall id, t' id = t id.
Proof.
  intros hs t i t' hs' ss V H.
  destruct (scan_all_spec _ _ _ _ _ _ _ V H) as [_ [_ [IX [_ RE]]]].
  assert (ND : forall j, ~ done_at t hs j).
  { intros j D. apply (proj2 (IX (i + j))). eauto. }
  split.
  - apply nth_error_same. intro j. destruct (nth_error hs j) as [h|] eqn:E.
    + apply (rep_rest _ _ _ _ _ RE j h E), ND.
    + apply nth_error_None. rewrite (rep_len _ _ _ _ _ RE). apply nth_error_None, E.
  - intro id. apply (rep_tab _ _ _ _ _ RE). intros j D. destruct (ND j D).
Qed.

Lemma reported_pt : forall t1 t2 hs sel t' hs', (forall id, t1 id = t2 id) ->
  reported t1 hs sel t' hs' -> reported t2 hs sel t' hs'.
Proof.
  intros t1 t2 hs sel t' hs' E [L RS RR RT]. split; auto.
  - intros j id r X R S'. rewrite <- E in R. apply RS; auto.
  - intros id X. rewrite <- E. apply RT, X.
Qed.

Lemma in_nonnull : forall hs id, In id (nonnull hs) <-> exists j, nth_error hs j = Some (Some id).
Proof.
  induction hs as [|h hs IH]; intro id; unfold nonnull; cbn [flat_map].
  - split; [intros []|]. intros [[|j] E]; discriminate.
  - fold (nonnull hs). rewrite in_app_iff, IH. split.
    + intros [K|[j J]]; [|exists (S j); exact J]. exists 0. destruct h; cbn in *; [|tauto].
      destruct K as [->|[]]. reflexivity.
    + intros [[|j] E]; cbn in E; [|right; exists j; exact E]. left. injection E as ->. left; reflexivity.
Qed.

(* MPI_Waitsome hands back exactly the complete requests, at least one, in ascending
   order.  The statuses are stored by array position, not by completion order: see
   waitsome_status_refuted. *)
Theorem waitsome_exact_partial : forall t evs hs t' evs' hs' ix ss, valid t hs ->
  waitsome t evs hs = Some (t', evs', hs', ix, ss) ->
  exists used, evs = used ++ evs' /\ let t1 := apply_events t used in
    ix <> [] /\ StronglySorted lt ix /\ (forall j, In j ix <-> done_at t1 hs j) /\
    (forall j, In j ix -> status_at t1 hs ss j) /\
    reported t1 hs (fun j => In j ix) t' hs'.
Proof.
  intros t evs hs t' evs' hs' ix ss V H. unfold waitsome in H.
  destruct (scan_all t 0 hs) as [[[t1 hs1] ix1] ss1] eqn:SA.
  assert (G : forall ta t2 hs2 ix2 ss2, valid ta hs -> scan_all ta 0 hs = (t2, hs2, ix2, ss2) ->
    StronglySorted lt ix2 /\ (forall j, In j ix2 <-> done_at ta hs j) /\
    (forall j, In j ix2 -> status_at ta hs ss2 j) /\
    reported ta hs (fun j => In j ix2) t2 hs2).
  { intros ta t2 hs2 ix2 ss2 Va E.
    destruct (scan_all_spec _ _ _ _ _ _ _ Va E) as [_ [SO [IX [ST RE]]]].
    assert (IX' : forall j, In j ix2 <-> done_at ta hs j).
    { intro j. rewrite IX. cbn. split; [intros [k [-> D]]; exact D|eauto]. }
    split; [exact SO|]. split; [exact IX'|]. split; [intros j J; apply ST, IX', J|].
    destruct RE as [L RS RR RT]. split; auto.
    - intros j id r X R J. apply RS; auto. apply IX', J.
    - intros j h X N. apply RR; auto. intro D. apply N, IX', D.
    - intros id X. apply RT. intros j D. apply X, IX', D. }
  destruct ix1 as [|a l].
  - destruct (scan_all_none _ _ _ _ _ _ V SA) as [-> TE].
    destruct (progress_until _ t1 evs) as [[t2 evs2]|] eqn:P; [|discriminate].
    destruct (progress_spec _ _ _ _ _ P) as [used [E1 [E2 E3]]].
    destruct (scan_all t2 0 hs) as [[[t3 hs3] ix3] ss3] eqn:SB.
    injection H as <- <- <- <- <-.
    assert (V1 : valid t1 hs) by (apply (valid_pt t); [exact V|]; intros; rewrite TE; tauto).
    assert (V2 : valid t2 hs) by (subst t2; apply valid_events, V1).
    assert (TT : forall id, t2 id = apply_events t used id).
    { intro id. subst t2. apply apply_events_pt, TE. }
    destruct (G t2 t3 hs3 ix3 ss3 V2 SB) as [G1 [G2 [G3 G4]]].
    assert (DD : forall j, done_at t2 hs j <-> done_at (apply_events t used) hs j).
    { intro j. split; apply done_at_pt; intros; auto. }
    exists used. split; [exact E1|]. intro tt. subst tt. split; [|split; [exact G1|split; [|split]]].
    + apply existsb_exists in E3. destruct E3 as [id [I1 I2]]. apply in_nonnull in I1.
      destruct I1 as [j J]. unfold is_complete in I2. destruct (t2 id) as [r|] eqn:R; [|discriminate].
      intro Z. assert (K : In j ix3) by (apply G2; exists id, r; auto). rewrite Z in K. destruct K.
    + intro j. rewrite G2. apply DD.
    + intros j J. destruct (G3 j J) as [id [r [A [B C]]]]. exists id, r. rewrite <- TT. auto.
    + apply (reported_pt t2); auto.
  - injection H as <- <- <- <- <-.
    destruct (G t t1 hs1 (a :: l) ss1 V SA) as [G1 [G2 [G3 G4]]].
    exists []. split; [reflexivity|]. cbn. split; [discriminate|]. auto.
Qed.
Print Assumptions waitsome_exact_partial.

(* ---------- test family ---------- *)

(* MPI_Test on a request that is not persistent. *)
Theorem test_once_partial : forall t id r, t id = Some r -> rq_pers r = false ->
  exists t' h' s, test t (Some id) = Some (t', h', rq_done r, s) /\
    reported t [Some id] (fun j => j = 0 /\ rq_done r = true) t' [h'] /\
    (rq_done r = true -> s = Some (rq_stat r)).
Proof.
  intros t id r T P. unfold test. rewrite T. destruct (rq_done r) eqn:D.
  - eexists; eexists; eexists. split; [reflexivity|]. split; [|reflexivity]. split.
    + reflexivity.
    + intros j x q X Q [-> _]. cbn in X. injection X as <-. rewrite T in Q. injection Q as <-.
      rewrite P. split; [reflexivity|apply set_same].
    + intros [|j] h X N; [exfalso; apply N; auto|]. destruct j; discriminate.
    + intros x X. apply set_other. intros ->. apply (X 0); auto.
  - eexists; eexists; eexists. split; [reflexivity|]. split; [|discriminate]. split; auto.
    intros j x q X Q [_ K]. discriminate.
Qed.
Print Assumptions test_once_partial.

(* A persistent request that is tested when complete is destroyed. *)
Theorem test_persistent_refuted : exists t id r t' s, t id = Some r /\ rq_pers r = true /\
  test t (Some id) = Some (t', None, true, s) /\ t' id = None.
Proof.
  exists (fun _ => Some {| rq_done := true; rq_pers := true; rq_stat := 5 |}), 3.
  eexists; eexists; eexists. repeat split.
Qed.
Print Assumptions test_persistent_refuted.

(* The array holds only live, different, ordinary requests. *)
Definition ordinary (t : table) (hs : list handle) : Prop :=
  forall j h, nth_error hs j = Some h -> exists id r, h = Some id /\ t id = Some r /\ rq_pers r = false.

Lemma ordinary_tail : forall t h hs, ordinary t (h :: hs) -> ordinary t hs.
Proof. intros t h hs O j x E. apply (O (S j) x E). Qed.

(* On such arrays the test loop does what the waitsome loop does. *)
Lemma testsome_scan : forall hs t i, valid t hs -> ordinary t hs ->
  testsome_loop t i hs = Some (scan_all t i hs).
Proof.
  induction hs as [|h hs IH]; intros t i V O; cbn [testsome_loop scan_all]; [reflexivity|].
  destruct (O 0 h eq_refl) as [id [r [-> [T P]]]].
  pose proof (valid_tail _ _ _ V) as VT. pose proof (ordinary_tail _ _ _ O) as OT.
  unfold test. rewrite T. destruct (rq_done r) eqn:D.
  - unfold finalize. rewrite P.
    assert (PT : forall j x, nth_error hs j = Some (Some x) -> set t id None x = t x).
    { intros j x X. apply set_other. intros ->. apply (valid_notin _ _ _ j V X). }
    rewrite IH.
    + destruct (scan_all (set t id None) (S i) hs) as [[[t2 r2] ix] ss]. reflexivity.
    + apply (valid_pt t); [exact VT|]. intros j x X. rewrite (PT j x X). tauto.
    + intros j x X. destruct (OT j x X) as [y [q [-> [Q1 Q2]]]]. exists y, q.
      rewrite (PT j y X). auto.
  - rewrite IH by auto. destruct (scan_all t (S i) hs) as [[[t2 r2] ix] ss]. reflexivity.
Qed.

(* MPI_Testsome reports exactly the complete requests, if none of the handles is null
   or persistent. *)
Theorem testsome_exact_partial : forall t hs, valid t hs -> ordinary t hs ->
  exists t' hs' ix ss, testsome t hs = Some (t', hs', ix, ss) /\
    StronglySorted lt ix /\ (forall j, In j ix <-> done_at t hs j) /\
    (forall j, In j ix -> status_at t hs ss j) /\
    reported t hs (done_at t hs) t' hs'.
Proof.
  intros t hs V O. unfold testsome. rewrite testsome_scan by auto.
  destruct (scan_all t 0 hs) as [[[t' hs'] ix] ss] eqn:SA. exists t', hs', ix, ss.
  destruct (scan_all_spec _ _ _ _ _ _ _ V SA) as [_ [SO [IX [ST RE]]]].
  assert (IX' : forall j, In j ix <-> done_at t hs j).
  { intro j. rewrite IX. cbn. split; [intros [k [-> D]]; exact D|eauto]. }
  split; [reflexivity|]. split; [exact SO|]. split; [exact IX'|].
  split; [intros j J; apply ST, IX', J|exact RE].
Qed.
Print Assumptions testsome_exact_partial.

(* A null handle is reported as complete. *)
Theorem testsome_null_refuted : exists t hs t' hs' ix ss j, valid t hs /\
  testsome t hs = Some (t', hs', ix, ss) /\ In j ix /\ ~ done_at t hs j.
Proof.
  exists (fun _ => None), [None]. eexists; eexists; eexists; eexists. exists 0.
  split; [|split; [reflexivity|split; [left; reflexivity|]]].
  - split; intros; destruct j; discriminate || (destruct j; discriminate).
  - intros [id [r [E _]]]. discriminate.
Qed.
Print Assumptions testsome_null_refuted.

(* MPI_Testany reports the first complete request, if none of the handles is null or
   persistent. *)
Theorem testany_one_partial : forall t hs, valid t hs -> ordinary t hs ->
  exists t' hs' res, testany t hs = Some (t', hs', res) /\
    match res with
    | None => (forall j, ~ done_at t hs j) /\ reported t hs (fun _ => False) t' hs'
    | Some (i, s) => done_at t hs i /\ (forall j, j < i -> ~ done_at t hs j) /\
        (exists id r, nth_error hs i = Some (Some id) /\ t id = Some r /\ s = Some (rq_stat r)) /\
        reported t hs (eq i) t' hs'
    end.
Proof.
  intros t hs V O. unfold testany.
  assert (G : forall hs i, valid t hs -> ordinary t hs ->
    testany_loop t i hs =
      match scan_first t i hs with
      | Some (k, id, q) => Some (set t id None, set_handle hs (k - i) None, Some (k, Some (rq_stat q)))
      | None => Some (t, hs, None)
      end /\
    forall k id q, scan_first t i hs = Some (k, id, q) -> i <= k).
  { clear hs V O. induction hs as [|h hs IH]; intros i V O; cbn [testany_loop scan_first].
    - split; [reflexivity|discriminate].
    - destruct (O 0 h eq_refl) as [id [r [-> [T P]]]]. unfold test. rewrite T.
      destruct (rq_done r) eqn:D.
      + rewrite Nat.sub_diag. split; [reflexivity|]. intros k x q K. injection K as <- _ _. lia.
      + destruct (IH (S i) (valid_tail _ _ _ V) (ordinary_tail _ _ _ O)) as [E L]. rewrite E.
        destruct (scan_first t (S i) hs) as [[[k x] q]|] eqn:SF.
        * specialize (L k x q eq_refl). split.
          -- replace (k - i) with (S (k - S i)) by lia. reflexivity.
          -- intros k' x' q' K. injection K as <- _ _. lia.
        * split; [reflexivity|discriminate]. }
  destruct (G hs 0 V O) as [E _]. rewrite E.
  destruct (scan_first t 0 hs) as [[[k id] q]|] eqn:SF.
  - destruct (scan_first_some _ _ _ _ _ _ SF) as [j [J1 [J2 [J3 [J4 J5]]]]]. cbn in J1. subst k.
    rewrite Nat.sub_0_r. eexists; eexists; eexists. split; [reflexivity|]. cbn.
    split; [exists id, q; auto|]. split; [exact J5|]. split; [exists id, q; auto|].
    destruct (O j _ J2) as [y [r [Y1 [Y2 Y3]]]]. injection Y1 as <-. assert (r = q) by congruence. subst r.
    destruct (finish_reported t hs j id q (set t id None) None (rq_stat q) V J2 J3) as [_ RE]; [|exact RE].
    unfold finalize. rewrite Y3. reflexivity.
  - eexists; eexists; eexists. split; [reflexivity|]. cbn. split.
    + assert (N : forall hs i, scan_first t i hs = None -> forall j, ~ done_at t hs j).
      { clear. induction hs as [|h hs IH]; intros i H j [id [r [A [B C]]]]; [destruct j; discriminate|].
        cbn [scan_first] in H. destruct j as [|j].
        - cbn in A. injection A as ->. rewrite B, C in H. discriminate.
        - assert (K : scan_first t (S i) hs = None).
          { destruct h as [x|]; [|exact H]. destruct (t x) as [q|]; [|exact H].
            destruct (rq_done q); [discriminate|exact H]. }
          apply (IH (S i) K j). exists id, r. auto. }
      apply (N hs 0 SF).
    + split; auto. intros j x q X Q [].
Qed.
Print Assumptions testany_one_partial.

(* A null handle in front hides a complete request. *)
Theorem testany_null_refuted : exists t hs t' hs' s, valid t hs /\ done_at t hs 1 /\
  testany t hs = Some (t', hs', Some (0, s)) /\ ~ done_at t hs 0.
Proof.
  exists (fun _ => Some {| rq_done := true; rq_pers := false; rq_stat := 5 |}), [None; Some 2].
  eexists; eexists; eexists. split; [|split; [|split; [reflexivity|]]].
  - split; [discriminate|]. intros [|[|[|i]]] [|[|[|j]]] id; cbn; discriminate || auto.
  - exists 2. eexists. repeat split.
  - intros [id [r [E _]]]. discriminate.
Qed.
Print Assumptions testany_null_refuted.

(* MPI_Testall says yes exactly when all are complete, and then hands back all; when
   it says no the complete requests in front are gone already, see
   testall_consumes_refuted. *)
Theorem testall_flag_partial : forall hs t, valid t hs -> ordinary t hs ->
  exists t' hs' ok ss, testall t hs = Some (t', hs', ok, ss) /\
    (ok = true <-> forall j, j < length hs -> done_at t hs j) /\
    (ok = true -> reported t hs (fun j => j < length hs) t' hs' /\
                  forall j, j < length hs -> status_at t hs ss j).
Proof.
  induction hs as [|h hs IH]; intros t V O; cbn [testall].
  - exists t, [], true, []. split; [reflexivity|]. split.
    + split; auto. intros _ j L. inversion L.
    + intros _. split; [|intros j L; inversion L]. split; auto.
      intros j id r X R L. inversion L.
  - destruct (O 0 h eq_refl) as [id [r [-> [T P]]]]. unfold test. rewrite T.
    destruct (rq_done r) eqn:D.
    + assert (NI : forall j, nth_error hs j <> Some (Some id)) by (intro j; apply (valid_notin _ _ _ _ V)).
      assert (PT : forall j x, nth_error hs j = Some (Some x) -> set t id None x = t x).
      { intros j x X. apply set_other. intros ->. apply (NI j X). }
      destruct (IH (set t id None)) as [t2 [r2 [ok [ss [E [F G]]]]]].
      { apply (valid_pt t); [apply (valid_tail _ _ _ V)|]. intros j x X. rewrite (PT j x X). tauto. }
      { intros j x X. destruct (ordinary_tail _ _ _ O j x X) as [y [q [-> [Q1 Q2]]]]. exists y, q.
        rewrite (PT j y X). auto. }
      rewrite E.
      assert (SH : forall j, done_at t (Some id :: hs) (S j) <-> done_at (set t id None) hs j).
      { intro j. split; intro DD.
        - apply (done_at_pt t _ hs j); [|exact DD]. intros x X. symmetry. apply (PT j x X).
        - apply (done_at_pt _ t hs j) in DD; [exact DD|]. intros x X. apply (PT j x X). }
      exists t2, (None :: r2), ok, (Some (rq_stat r) :: ss). split; [reflexivity|]. split.
      * rewrite F. split.
        -- intros H [|j] L; [exists id, r; auto|]. apply SH, H. cbn in L. lia.
        -- intros H j L. apply SH, H. cbn. lia.
      * intro OK. destruct (G OK) as [RE ST]. split.
        -- split.
           ++ cbn. f_equal. apply RE.
           ++ intros [|j] x q X Q L.
              ** cbn in X. injection X as <-. rewrite T in Q. injection Q as <-. rewrite P.
                 split; [reflexivity|]. rewrite (rep_tab _ _ _ _ _ RE); [apply set_same|].
                 intros j _. apply NI.
              ** cbn in X. rewrite <- (PT j x X) in Q.
                 apply (rep_sel _ _ _ _ _ RE j x q X Q). cbn in L. lia.
           ++ intros [|j] x X N; [exfalso; apply N; cbn; lia|].
              apply (rep_rest _ _ _ _ _ RE j x X). intro; apply N; cbn; lia.
           ++ intros x X. rewrite (rep_tab _ _ _ _ _ RE).
              ** apply set_other. intros ->. apply (X 0); [cbn; lia|reflexivity].
              ** intros j L. apply (X (S j)). cbn. lia.
        -- intros [|j] L; [exists id, r; auto|].
           destruct (ST j) as [x [q [A [B C]]]]; [cbn in L; lia|]. exists x, q.
           rewrite <- (PT j x A). auto.
    + eexists; eexists; eexists; eexists. split; [reflexivity|]. split; [|discriminate].
      split; [discriminate|]. intro H. destruct (H 0) as [x [q [A [B C]]]]; [cbn; lia|].
      cbn in A. congruence.
Qed.
Print Assumptions testall_flag_partial.

(* Two requests, the first complete: MPI_Testall says no and yet consumes it. *)
Theorem testall_consumes_refuted : exists t hs t' hs' ss, valid t hs /\ ordinary t hs /\
  testall t hs = Some (t', hs', false, ss) /\ hs' <> hs /\
  exists id, t id <> None /\ t' id = None.
Proof.
  exists (fun id => Some {| rq_done := Nat.eqb id 0; rq_pers := false; rq_stat := 5 |}), [Some 0; Some 1].
  eexists; eexists; eexists. split; [|split; [|split; [reflexivity|]]].
  - split; [discriminate|]. intros [|[|[|i]]] [|[|[|j]]] id; cbn; congruence.
  - intros [|[|[|j]]] h H; cbn in H; try discriminate; injection H as <-; eexists; eexists; repeat split.
  - split; [discriminate|]. exists 0. split; [discriminate|reflexivity].
Qed.
Print Assumptions testall_consumes_refuted.

(* MPI puts the status of the k-th reported request at position k; here it is at the
   request's own position. *)
Theorem waitsome_status_refuted : exists t hs t' evs' hs' ss r, valid t hs /\
  waitsome t [] hs = Some (t', evs', hs', [1], ss) /\ t 2 = Some r /\ nth_error hs 1 = Some (Some 2) /\
  nth_error ss 0 <> Some (Some (rq_stat r)).
Proof.
  exists (fun id => Some {| rq_done := Nat.eqb id 2; rq_pers := false; rq_stat := 5 |}), [Some 0; Some 2].
  eexists; eexists; eexists; eexists; eexists. split; [|split; [reflexivity|split; [reflexivity|split; [reflexivity|]]]].
  - split; [discriminate|]. intros [|[|[|i]]] [|[|[|j]]] id; cbn; congruence.
  - discriminate.
Qed.
Print Assumptions waitsome_status_refuted.

(* With only null handles MPI_Waitsome must return at once (MPI_UNDEFINED); here no
   message ever ends the wait. *)
Theorem waitsome_null_stuck : forall t evs n, waitsome t evs (repeat None n) = None.
Proof.
  intros t evs n. unfold waitsome.
  assert (S' : forall n i, scan_all t i (repeat None n) = (t, repeat None n, [], repeat None n)).
  { clear n. induction n as [|n IH]; intro i; cbn [repeat scan_all]; [reflexivity|]. rewrite IH. reflexivity. }
  rewrite S'.
  assert (N : nonnull (repeat None n) = []) by (clear; induction n; cbn; auto).
  rewrite N. cbn [existsb].
  assert (P : forall evs t, progress_until (fun _ => false) t evs = None)
    by (clear; induction evs; intro; cbn; auto).
  rewrite P. reflexivity.
Qed.
Print Assumptions waitsome_null_stuck.

Theorem waitsome_null_refuted : exists t hs, valid t hs /\ forall evs, waitsome t evs hs = None.
Proof.
  exists (fun _ => None), [None; None]. split; [|intro evs; apply (waitsome_null_stuck _ evs 2)].
  split; [|intros i j id A]; intros; destruct i as [|[|[|i]]] || destruct j as [|[|[|j]]]; discriminate.
Qed.
Print Assumptions waitsome_null_refuted.

(* ---------- examples ---------- *)

Definition ex_table : table := fun id =>
  match id with
  | 1 => Some {| rq_done := false; rq_pers := false; rq_stat := 0 |}
  | 2 => Some {| rq_done := false; rq_pers := true; rq_stat := 0 |}
  | 3 => Some {| rq_done := false; rq_pers := false; rq_stat := 0 |}
  | _ => None
  end.

(* Request 3 and persistent request 2 complete with the second message. *)
Example waitsome_example :
  match waitsome ex_table [[(9, 7)]; [(3, 30); (2, 20)]; [(1, 10)]] [Some 1; None; Some 2; Some 3] with
  | Some (t', evs', hs', ix, ss) =>
      evs' = [[(1, 10)]] /\ hs' = [Some 1; None; Some 2; None] /\ ix = [2; 3] /\
      ss = [None; None; Some 20; Some 30] /\ t' 3 = None /\ t' 2 <> None
  | None => False
  end.
Proof. vm_compute. repeat split; discriminate. Qed.

Example waitany_example :
  match waitany ex_table [[(9, 7)]; [(3, 30); (2, 20)]; [(1, 10)]] [Some 1; None; Some 3; Some 2] with
  | Some (_, _, hs', i, s) => hs' = [Some 1; None; None; Some 2] /\ i = 2 /\ s = 30
  | None => False
  end.
Proof. vm_compute. repeat split. Qed.

Example waitall_example :
  match waitall ex_table [[(9, 7)]; [(3, 30); (2, 20)]; [(1, 10)]] [Some 1; None; Some 3; Some 2] with
  | Some (_, _, hs', ss) => hs' = [None; None; None; Some 2] /\ ss = [Some 10; None; Some 30; Some 20]
  | None => False
  end.
Proof. vm_compute. repeat split. Qed.

Example valid_example : valid ex_table [Some 1; None; Some 2; Some 3].
Proof.
  split.
  - intros [|[|[|[|[|j]]]]] id H; cbn in H; try discriminate; injection H as <-; discriminate.
  - intros [|[|[|[|[|i]]]]] [|[|[|[|[|j]]]]] id A B; cbn in *; congruence.
Qed.
