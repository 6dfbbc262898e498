(** Reasoning about schedules of phases: local assertions give the result,
    balanced messages and a numbering of the phases give termination. *)
From Coq Require Import List Arith Lia Bool.
From Verif Require Import PhModel.
Import ListNotations.

Section Ph.
Context {St Msg : Type}.
Variable g : prog St Msg.

(** [inv p k m]: the buffers of rank [p] before phase [k]; [good t p q v]: the
    contents of the message of round [t] from [p] to [q]. *)
Variable inv : nat -> nat -> St -> Prop.
Variable good : nat -> nat -> nat -> Msg -> Prop.

(** Buffers inside a phase, with the receives that are missing. *)
Inductive within (p k : nat) (h : phase St Msg) : list (precv St Msg) -> St -> Prop :=
| wi_start : forall m, inv p k m -> within p k h (ph_rcv h) (ph_loc h m)
| wi_recv : forall l1 l2 t q wr m v, within p k h (l1 ++ (t, q, wr) :: l2) m -> good t q p v ->
    within p k h (l1 ++ l2) (wr m v).

Definition annotated : Prop :=
  (forall p, p < pg_np g -> inv p 0 (pg_init g p)) /\
  (forall p k h, p < pg_np g -> nth_error (pg_ph g p) k = Some h ->
     (forall l m t q rd, within p k h l m -> In (t, q, rd) (ph_snd h) -> good t p q (rd m)) /\
     (forall m, within p k h [] m -> inv p (S k) m)).

(** Where a rank is. *)
Definition at_phase (p : nat) (w : proc St Msg) : Prop :=
  (w_snd w = [] /\ w_rcv w = [] /\
   exists k, w_rest w = skipn k (pg_ph g p) /\ k <= length (pg_ph g p) /\ inv p k (w_mem w)) \/
  (exists k h, nth_error (pg_ph g p) k = Some h /\ w_rest w = skipn (S k) (pg_ph g p) /\
     incl (w_snd w) (ph_snd h) /\ incl (w_rcv w) (ph_rcv h) /\ within p k h (w_rcv w) (w_mem w)).

Definition pinv (c : pcfg St Msg) : Prop :=
  (forall p, p < pg_np g -> at_phase p (p_proc c p)) /\
  (forall t p q m, In (t, p, q, m) (p_net c) -> good t p q m).

Lemma pset_same : forall (f : nat -> proc St Msg) p w, pset f p w p = w.
Proof. intros. unfold pset. rewrite Nat.eqb_refl. reflexivity. Qed.
Lemma pset_other : forall (f : nat -> proc St Msg) p w q, q <> p -> pset f p w q = f q.
Proof. intros. unfold pset. destruct (Nat.eqb_spec q p); [contradiction|reflexivity]. Qed.

Lemma skipn_cons : forall (A : Type) k (l : list A) h r, skipn k l = h :: r ->
  nth_error l k = Some h /\ r = skipn (S k) l.
Proof.
  intros A k. induction k as [|k IH]; intros l h r E.
  - cbn in E. subst l. split; reflexivity.
  - destruct l as [|x l]; [discriminate|]. cbn [skipn] in E. destruct (IH l h r E) as (H1 & H2).
    split; [exact H1|exact H2].
Qed.

Lemma pinv_exec : annotated -> forall n c, pexec g n c -> pinv c.
Proof.
  intros (A0 & A1) n c H. induction H as [|n c c' H (I1 & I2) Hs].
  - split; [|intros t p q m []]. intros p Hp. left. cbn. repeat split.
    exists 0. split; [reflexivity|]. split; [lia|apply A0; exact Hp].
  - destruct Hs as [c p w h k Hp Hw Hs0 Hr0 Hk | c p w t q rd l1 l2 Hp Hw Hl | c p w t q wr m l1 l2 n1 n2 Hp Hw Hl Hn].
    + split; [|exact I2]. intros p' Hp'. cbn [p_proc]. destruct (Nat.eq_dec p' p) as [->|Hne];
        [rewrite pset_same|rewrite pset_other by exact Hne; apply I1; exact Hp'].
      destruct (I1 p Hp) as [(B1 & B2 & j & B3 & B4 & B5)|(j & h' & B1 & B2 & B3 & B4 & B5)]; rewrite Hw in *.
      * rewrite Hk in B3. symmetry in B3. apply skipn_cons in B3. destruct B3 as (B3 & B6).
        right. exists j, h. cbn [w_snd w_rcv w_rest w_mem]. repeat split; try assumption; try apply incl_refl.
        apply wi_start. exact B5.
      * rewrite Hk in B2. symmetry in B2. apply skipn_cons in B2. destruct B2 as (B2 & B6).
        right. exists (S j), h. cbn [w_snd w_rcv w_rest w_mem]. repeat split; try assumption; try apply incl_refl.
        apply wi_start. destruct (A1 p j h' Hp B1) as (_ & A2). apply A2. rewrite Hr0 in B5. exact B5.
    + destruct (I1 p Hp) as [(B1 & B2 & j & B3 & B4 & B5)|(j & h' & B1 & B2 & B3 & B4 & B5)]; rewrite Hw in *.
      { rewrite Hl in B1. destruct l1; discriminate. }
      split.
      * intros p' Hp'. cbn [p_proc]. destruct (Nat.eq_dec p' p) as [->|Hne];
          [rewrite pset_same|rewrite pset_other by exact Hne; apply I1; exact Hp'].
        right. exists j, h'. cbn [w_snd w_rcv w_rest w_mem]. repeat split; try assumption.
        intros x Hx. apply B3. rewrite Hl. apply in_app_iff in Hx. apply in_or_app. cbn [In]. tauto.
      * intros t' p' q' m' Hin. cbn [p_net] in Hin. destruct Hin as [E|Hin]; [|apply I2; exact Hin].
        injection E as <- <- <- <-. destruct (A1 p j h' Hp B1) as (A2 & _).
        apply (A2 _ _ t q rd B5). apply B3. rewrite Hl. apply in_or_app. right. left. reflexivity.
    + destruct (I1 p Hp) as [(B1 & B2 & j & B3 & B4 & B5)|(j & h' & B1 & B2 & B3 & B4 & B5)]; rewrite Hw in *.
      { rewrite Hl in B2. destruct l1; discriminate. }
      split.
      * intros p' Hp'. cbn [p_proc]. destruct (Nat.eq_dec p' p) as [->|Hne];
          [rewrite pset_same|rewrite pset_other by exact Hne; apply I1; exact Hp'].
        right. exists j, h'. cbn [w_snd w_rcv w_rest w_mem]. repeat split; try assumption.
        -- intros x Hx. apply B4. rewrite Hl. apply in_app_iff in Hx. apply in_or_app. cbn [In]. tauto.
        -- rewrite Hl in B5. apply (wi_recv p j h' l1 l2 t q wr (w_mem w) m B5).
           apply I2. rewrite Hn. apply in_or_app. right. left. reflexivity.
      * intros t' p' q' m' Hin. cbn [p_net] in Hin. apply I2. rewrite Hn.
        apply in_app_iff in Hin. apply in_or_app. cbn [In]. tauto.
Qed.

(** A rank that is through has the buffers of its last assertion. *)
Theorem phases_result : annotated -> forall n c p, pexec g n c -> p < pg_np g -> pdone (p_proc c p) ->
  inv p (length (pg_ph g p)) (w_mem (p_proc c p)).
Proof.
  intros A n c p Hx Hp (D1 & D2 & D3). destruct (pinv_exec A n c Hx) as (I1 & _).
  assert (Hend : forall k (l : list (phase St Msg)), skipn k l = [] -> length l <= k).
  { intros k l E. pose proof (skipn_length k l) as H. rewrite E in H. cbn in H. lia. }
  destruct (I1 p Hp) as [(B1 & B2 & j & B3 & B4 & B5)|(j & h' & B1 & B2 & B3 & B4 & B5)].
  - rewrite D3 in B3. symmetry in B3. apply Hend in B3. replace (length (pg_ph g p)) with j by lia. exact B5.
  - rewrite D3 in B2. symmetry in B2. apply Hend in B2.
    assert (Hj : j < length (pg_ph g p)) by (apply nth_error_Some; congruence).
    replace (length (pg_ph g p)) with (S j) by lia. destruct A as (_ & A1).
    destruct (A1 p j h' Hp B1) as (_ & A2). apply A2. rewrite D2 in B5. exact B5.
Qed.

(** Phases without and with one receive. *)
Lemma within_none : forall p k h l m, ph_rcv h = [] -> within p k h l m ->
  l = [] /\ exists m0, inv p k m0 /\ m = ph_loc h m0.
Proof.
  intros p k h l m E H. induction H as [m H|l1 l2 t q wr m v H IH Hv].
  - split; [exact E|]. exists m. auto.
  - destruct IH as (E' & _). destruct l1; discriminate.
Qed.
Lemma within_one : forall p k h l m t q wr, ph_rcv h = [(t, q, wr)] -> within p k h l m ->
  exists m0, inv p k m0 /\
    ((l = [(t, q, wr)] /\ m = ph_loc h m0) \/ (l = [] /\ exists v, good t q p v /\ m = wr (ph_loc h m0) v)).
Proof.
  intros p k h l m t q wr E H. induction H as [m H|l1 l2 t' q' wr' m v H IH Hv].
  - exists m. split; [exact H|]. left. auto.
  - destruct IH as (m0 & H0 & [(El & Em)|(El & _)]); [|destruct l1; discriminate].
    exists m0. split; [exact H0|]. right. destruct l1 as [|x l1]; [|destruct l1; discriminate].
    cbn [app] in *. injection El as -> -> -> ->. split; [reflexivity|]. exists v. subst m. auto.
Qed.
Lemma within_two : forall p k h l m t1 q1 wr1 t2 q2 wr2, ph_rcv h = [(t1, q1, wr1); (t2, q2, wr2)] -> within p k h l m ->
  exists m0, inv p k m0 /\
    ((l = [(t1, q1, wr1); (t2, q2, wr2)] /\ m = ph_loc h m0) \/
     (l = [(t2, q2, wr2)] /\ exists v, good t1 q1 p v /\ m = wr1 (ph_loc h m0) v) \/
     (l = [(t1, q1, wr1)] /\ exists v, good t2 q2 p v /\ m = wr2 (ph_loc h m0) v) \/
     (l = [] /\ exists v1 v2, good t1 q1 p v1 /\ good t2 q2 p v2 /\
        (m = wr2 (wr1 (ph_loc h m0) v1) v2 \/ m = wr1 (wr2 (ph_loc h m0) v2) v1))).
Proof.
  intros p k h l m t1 q1 wr1 t2 q2 wr2 E H. induction H as [m H|l1 l2 t' q' wr' m v H IH Hv].
  - exists m. split; [exact H|]. left. auto.
  - destruct IH as (m0 & H0 & [(El & Em)|[(El & v' & G & Em)|[(El & v' & G & Em)|(El & _)]]]); [| | |destruct l1; discriminate];
      exists m0; (split; [exact H0|]).
    + destruct l1 as [|x [|y l1]]; cbn [app] in *; [| |destruct l1; discriminate].
      * injection El as -> -> -> ->. right. left. split; [reflexivity|]. exists v. subst m. auto.
      * injection El as -> -> -> -> ->. right. right. left. split; [reflexivity|]. exists v. subst m. auto.
    + destruct l1 as [|x l1]; cbn [app] in *; [|destruct l1; discriminate]. injection El as -> -> -> ->.
      right. right. right. split; [reflexivity|]. exists v', v. subst m. auto.
    + destruct l1 as [|x l1]; cbn [app] in *; [|destruct l1; discriminate]. injection El as -> -> -> ->.
      right. right. right. split; [reflexivity|]. exists v, v'. subst m. auto.
Qed.
End Ph.

(** * Termination *)

Section Term.
Context {St Msg : Type}.
Variable g : prog St Msg.

Definition keyb (t q : nat) (x : nat * nat) : bool := (fst x =? t) && (snd x =? q).
Definition cnt (t q : nat) (l : list (nat * nat)) : nat := length (filter (keyb t q) l).
Definition skeys (l : list (psend St Msg)) : list (nat * nat) := map fst l.
Definition rkeys (l : list (precv St Msg)) : list (nat * nat) := map fst l.
Definition all_s (k : list (phase St Msg)) : list (nat * nat) := flat_map (fun h => skeys (ph_snd h)) k.
Definition all_r (k : list (phase St Msg)) : list (nat * nat) := flat_map (fun h => rkeys (ph_rcv h)) k.

(** Every message that is sent is received and conversely, once; the phases can
    be numbered such that the end of a receive comes after the begin of the
    send. *)
Definition balanced : Prop :=
  forall t p q, p < pg_np g -> q < pg_np g -> cnt t q (all_s (pg_ph g p)) = cnt t p (all_r (pg_ph g q)).
Definition single : Prop := forall t p q, p < pg_np g -> cnt t q (all_s (pg_ph g p)) <= 1.
Definition inside : Prop := forall t p q, p < pg_np g ->
  (In (t, q) (all_s (pg_ph g p)) -> q < pg_np g) /\ (In (t, q) (all_r (pg_ph g p)) -> q < pg_np g).
Definition ordered (tm : nat -> nat -> nat) : Prop :=
  (forall p k, tm p k < tm p (S k)) /\
  (forall p k h t q, p < pg_np g -> nth_error (pg_ph g p) k = Some h -> In (t, q) (rkeys (ph_rcv h)) ->
     exists k' h', nth_error (pg_ph g q) k' = Some h' /\ In (t, p) (skeys (ph_snd h')) /\ tm q k' < tm p (S k)).
Lemma ordered_of_strict : forall tm, (forall p k, tm p k < tm p (S k)) /\
  (forall p k h t q, p < pg_np g -> nth_error (pg_ph g p) k = Some h -> In (t, q) (rkeys (ph_rcv h)) ->
     exists k' h', nth_error (pg_ph g q) k' = Some h' /\ In (t, p) (skeys (ph_snd h')) /\ tm q k' < tm p k) ->
  ordered tm.
Proof.
  intros tm (H1 & H2). split; [exact H1|]. intros p k h t q Hp Hk Hin.
  destruct (H2 p k h t q Hp Hk Hin) as (k' & h' & E & Hs & Hlt). exists k', h'. split; [exact E|]. split; [exact Hs|].
  pose proof (H1 p k). lia.
Qed.

Definition rem_s (w : proc St Msg) : list (nat * nat) := skeys (w_snd w) ++ all_s (w_rest w).
Definition rem_r (w : proc St Msg) : list (nat * nat) := rkeys (w_rcv w) ++ all_r (w_rest w).
Definition cntn (t p q : nat) (l : list (nat * nat * nat * Msg)) : nat :=
  length (filter (fun x => (fst (fst (fst x)) =? t) && (snd (fst (fst x)) =? p) && (snd (fst x) =? q)) l).

Lemma cnt_app : forall t q a b, cnt t q (a ++ b) = cnt t q a + cnt t q b.
Proof. intros. unfold cnt. rewrite filter_app, app_length. reflexivity. Qed.
Lemma cntn_app : forall t p q a b, cntn t p q (a ++ b) = cntn t p q a + cntn t p q b.
Proof. intros. unfold cntn. rewrite filter_app, app_length. reflexivity. Qed.
Lemma cnt_cons : forall t q t' q' l,
  cnt t q ((t', q') :: l) = (if (t' =? t) && (q' =? q) then 1 else 0) + cnt t q l.
Proof. intros. unfold cnt, keyb. cbn [filter fst snd]. destruct ((t' =? t) && (q' =? q)); reflexivity. Qed.
Lemma cntn_cons : forall t p q t' p' q' m l,
  cntn t p q ((t', p', q', m) :: l) = (if (t' =? t) && (p' =? p) && (q' =? q) then 1 else 0) + cntn t p q l.
Proof. intros. unfold cntn. cbn [filter fst snd]. destruct ((t' =? t) && (p' =? p) && (q' =? q)); reflexivity. Qed.
Lemma cnt_in : forall t q l, In (t, q) l <-> 0 < cnt t q l.
Proof.
  intros t q l. induction l as [|(t' & q') l IH].
  - cbn. split; [tauto|lia].
  - rewrite cnt_cons. cbn [In]. rewrite IH. destruct (Nat.eqb_spec t' t) as [->|H1]; [|cbn].
    + destruct (Nat.eqb_spec q' q) as [->|H2]; cbn [andb]; [split; [lia|intros _; left; reflexivity]|].
      split; [intros [E|E]; [congruence|lia]|intros E; right; lia].
    + split; [intros [E|E]; [congruence|lia]|intros E; right; lia].
Qed.

(** Conservation of messages. *)
Definition pcons (c : pcfg St Msg) : Prop :=
  forall t p q, p < pg_np g -> q < pg_np g ->
    cntn t p q (p_net c) + cnt t q (rem_s (p_proc c p)) = cnt t p (rem_r (p_proc c q)).

Lemma skeys_app : forall a b, skeys (a ++ b) = skeys a ++ skeys b. Proof. intros. apply map_app. Qed.
Lemma rkeys_app : forall a b, rkeys (a ++ b) = rkeys a ++ rkeys b. Proof. intros. apply map_app. Qed.

Lemma pcons_exec : balanced -> forall n c, pexec g n c -> pcons c.
Proof.
  intros B n c H. induction H as [|n c c' H IH Hs].
  - intros t p q Hp Hq. cbn [pinit p_net p_proc w_snd w_rcv w_rest rem_s rem_r skeys rkeys map app].
    unfold rem_s, rem_r. cbn [skeys rkeys map app w_snd w_rcv w_rest]. unfold cntn. cbn [filter length].
    exact (B t p q Hp Hq).
  - destruct Hs as [c p w h k Hp Hw Hs0 Hr0 Hk | c p w t q rd l1 l2 Hp Hw Hl | c p w t q wr m l1 l2 n1 n2 Hp Hw Hl Hn];
      intros t' p' q' Hp' Hq'; cbn [p_net p_proc]; specialize (IH t' p' q' Hp' Hq').
    + assert (Es : forall x, rem_s (pset (p_proc c) p {| w_snd := ph_snd h; w_rcv := ph_rcv h; w_rest := k;
                      w_mem := ph_loc h (w_mem w) |} x) = rem_s (p_proc c x)).
      { intros x. destruct (Nat.eq_dec x p) as [->|Hne]; [rewrite pset_same|rewrite pset_other by exact Hne; reflexivity].
        unfold rem_s. cbn [w_snd w_rest]. rewrite Hw, Hs0, Hk. reflexivity. }
      assert (Er : forall x, rem_r (pset (p_proc c) p {| w_snd := ph_snd h; w_rcv := ph_rcv h; w_rest := k;
                      w_mem := ph_loc h (w_mem w) |} x) = rem_r (p_proc c x)).
      { intros x. destruct (Nat.eq_dec x p) as [->|Hne]; [rewrite pset_same|rewrite pset_other by exact Hne; reflexivity].
        unfold rem_r. cbn [w_rcv w_rest]. rewrite Hw, Hr0, Hk. reflexivity. }
      rewrite Es, Er. exact IH.
    + set (w' := {| w_snd := l1 ++ l2; w_rcv := w_rcv w; w_rest := w_rest w; w_mem := w_mem w |}).
      assert (Er : rem_r (pset (p_proc c) p w' q') = rem_r (p_proc c q')).
      { destruct (Nat.eq_dec q' p) as [->|Hne]; [rewrite pset_same|rewrite pset_other by exact Hne; reflexivity].
        unfold rem_r. rewrite Hw. reflexivity. }
      rewrite Er, cntn_cons. rewrite <- IH.
      destruct (Nat.eq_dec p' p) as [->|Hne].
      * rewrite pset_same. unfold rem_s. rewrite Hw, Hl. unfold w'. cbn [w_snd w_rest].
        rewrite !cnt_app, !skeys_app. cbn [skeys map fst]. fold (skeys l2). rewrite !cnt_app, cnt_cons, Nat.eqb_refl.
        destruct (t =? t'); cbn [andb]; destruct (q =? q'); lia.
      * rewrite pset_other by exact Hne. destruct (Nat.eqb_spec p p'); [congruence|].
        rewrite andb_false_r. cbn [andb]. lia.
    + set (w' := {| w_snd := w_snd w; w_rcv := l1 ++ l2; w_rest := w_rest w; w_mem := wr (w_mem w) m |}).
      assert (Es : rem_s (pset (p_proc c) p w' p') = rem_s (p_proc c p')).
      { destruct (Nat.eq_dec p' p) as [->|Hne]; [rewrite pset_same|rewrite pset_other by exact Hne; reflexivity].
        unfold rem_s. rewrite Hw. reflexivity. }
      rewrite Es. rewrite Hn, cntn_app, cntn_cons in IH. rewrite cntn_app.
      destruct (Nat.eq_dec q' p) as [->|Hne].
      * rewrite pset_same. unfold rem_r in *. rewrite Hw, Hl in IH. unfold w'. cbn [w_rcv w_rest].
        rewrite !cnt_app, !rkeys_app in *. cbn [rkeys map fst] in IH. fold (rkeys l2) in IH.
        rewrite !cnt_app, cnt_cons, Nat.eqb_refl in *.
        destruct (t =? t'); cbn [andb] in IH; [destruct (q =? p'); cbn [andb] in IH|]; lia.
      * rewrite pset_other by exact Hne. destruct (Nat.eqb_spec p q'); [congruence|].
        rewrite andb_false_r in IH. lia.
Qed.

Fixpoint sumn (f : nat -> nat) (n : nat) : nat := match n with 0 => 0 | S m => sumn f m + f m end.
Definition phase_size (h : phase St Msg) : nat := 1 + length (ph_snd h) + length (ph_rcv h).
Definition prog_size (k : list (phase St Msg)) : nat := fold_right (fun h n => phase_size h + n) 0 k.
Definition proc_size (w : proc St Msg) : nat := length (w_snd w) + length (w_rcv w) + prog_size (w_rest w).

Lemma sumn_set : forall (f : nat -> proc St Msg) p w k, p < k -> S (proc_size w) = proc_size (f p) ->
  S (sumn (fun q => proc_size (pset f p w q)) k) = sumn (fun q => proc_size (f q)) k.
Proof.
  intros f p w k Hp E. induction k as [|k IH]; [lia|]. cbn [sumn].
  destruct (Nat.eq_dec p k) as [->|Hne].
  - rewrite pset_same. assert (Es : sumn (fun q => proc_size (pset f k w q)) k = sumn (fun q => proc_size (f q)) k).
    { clear. assert (G : forall j, j <= k -> sumn (fun q => proc_size (pset f k w q)) j = sumn (fun q => proc_size (f q)) j).
      { induction j as [|j IH]; intros Hj; [reflexivity|]. cbn [sumn]. rewrite pset_other by lia. rewrite IH by lia. reflexivity. }
      apply G. lia. }
    rewrite Es. lia.
  - rewrite pset_other by lia. rewrite <- (IH ltac:(lia)). lia.
Qed.

(** Every execution has the same number of steps left. *)
Lemma psize_exec : forall n c, pexec g n c ->
  n + sumn (fun p => proc_size (p_proc c p)) (pg_np g) = sumn (fun p => prog_size (pg_ph g p)) (pg_np g).
Proof.
  intros n c H. induction H as [|n c c' H IH Hs]; [reflexivity|].
  rewrite <- IH. clear IH.
  assert (G : forall p w, p < pg_np g -> S (proc_size w) = proc_size (p_proc c p) ->
    S n + sumn (fun q => proc_size (pset (p_proc c) p w q)) (pg_np g) = n + sumn (fun q => proc_size (p_proc c q)) (pg_np g)).
  { intros p w Hp E. pose proof (sumn_set (p_proc c) p w (pg_np g) Hp E). lia. }
  destruct Hs as [c p w h k Hp Hw Hs0 Hr0 Hk | c p w t q rd l1 l2 Hp Hw Hl | c p w t q wr m l1 l2 n1 n2 Hp Hw Hl Hn];
    cbn [p_proc]; apply G; try exact Hp; rewrite Hw; unfold proc_size; cbn [w_snd w_rcv w_rest].
  - rewrite Hs0, Hr0, Hk. change (prog_size (h :: k)) with (phase_size h + prog_size k). unfold phase_size. cbn [length]. lia.
  - rewrite Hl, !app_length. cbn [length]. lia.
  - rewrite Hl, !app_length. cbn [length]. lia.
Qed.

Theorem phases_bounded : forall n c, pexec g n c -> n <= sumn (fun p => prog_size (pg_ph g p)) (pg_np g).
Proof. intros n c H. pose proof (psize_exec n c H). lia. Qed.

(** Phase of a rank, without assertions. *)
Definition where_at (p : nat) (w : proc St Msg) (k : nat) : Prop :=
  w_rest w = skipn k (pg_ph g p) /\ k <= length (pg_ph g p) /\
  (k = 0 -> w_snd w = [] /\ w_rcv w = []) /\
  (forall j h, k = S j -> nth_error (pg_ph g p) j = Some h -> incl (w_snd w) (ph_snd h) /\ incl (w_rcv w) (ph_rcv h)).

Lemma where_exec : forall n c, pexec g n c -> forall p, p < pg_np g -> exists k, where_at p (p_proc c p) k.
Proof.
  intros n c H. induction H as [|n c c' H IH Hs]; intros p' Hp'.
  - exists 0. unfold where_at. cbn [pinit p_proc w_rest w_snd w_rcv].
    split; [reflexivity|split; [lia|split; [auto|intros; lia]]].
  - destruct Hs as [c p w h k Hp Hw Hs0 Hr0 Hk | c p w t q rd l1 l2 Hp Hw Hl | c p w t q wr m l1 l2 n1 n2 Hp Hw Hl Hn];
      cbn [p_proc]; (destruct (Nat.eq_dec p' p) as [->|Hne];
        [rewrite pset_same|rewrite pset_other by exact Hne; apply IH; exact Hp']);
      destruct (IH p Hp) as (j & W1 & W2 & W3 & W4); rewrite Hw in *.
    + rewrite Hk in W1. symmetry in W1. apply skipn_cons in W1. destruct W1 as (W1 & W5).
      assert (Hj : j < length (pg_ph g p)) by (apply nth_error_Some; congruence).
      exists (S j). unfold where_at. cbn [w_rest w_snd w_rcv]. split; [exact W5|split; [lia|split; [lia|]]].
      intros i h' E E'. injection E as <-. rewrite W1 in E'. injection E' as <-. split; apply incl_refl.
    + exists j. unfold where_at. cbn [w_rest w_snd w_rcv]. split; [exact W1|split; [exact W2|split]].
      * intros E. destruct (W3 E) as (E1 & _). rewrite Hl in E1. destruct l1; discriminate.
      * intros i h' E E'. destruct (W4 i h' E E') as (E1 & E2). split; [|exact E2].
        intros x Hx. apply E1. rewrite Hl. apply in_app_iff in Hx. apply in_or_app. cbn [In]. tauto.
    + exists j. unfold where_at. cbn [w_rest w_snd w_rcv]. split; [exact W1|split; [exact W2|split]].
      * intros E. destruct (W3 E) as (_ & E1). rewrite Hl in E1. destruct l1; discriminate.
      * intros i h' E E'. destruct (W4 i h' E E') as (E1 & E2). split; [exact E1|].
        intros x Hx. apply E2. rewrite Hl. apply in_app_iff in Hx. apply in_or_app. cbn [In]. tauto.
Qed.

Lemma all_s_skipn : forall k j h (l : list (phase St Msg)) x, nth_error l j = Some h -> In x (skeys (ph_snd h)) ->
  k <= j -> In x (all_s (skipn k l)).
Proof.
  intros k j h l x Hj Hx Hk. unfold all_s. apply in_flat_map. exists h. split; [|exact Hx].
  apply nth_error_In with (n := j - k). rewrite <- (firstn_skipn k l) in Hj.
  assert (Hl : length (firstn k l) <= j) by (rewrite firstn_length; lia).
  rewrite nth_error_app2 in Hj by exact Hl.
  assert (Hlen : j < length l).
  { apply nth_error_Some. rewrite <- (firstn_skipn k l), nth_error_app2 by exact Hl. congruence. }
  rewrite firstn_length in Hj. replace (Nat.min k (length l)) with k in Hj by lia. exact Hj.
Qed.

Lemma cnt_split_phase : forall t q (l : list (phase St Msg)) j h k, nth_error l j = Some h ->
  In (t, q) (skeys (ph_snd h)) -> j < k -> cnt t q (all_s (skipn k l)) < cnt t q (all_s l).
Proof.
  intros t q l j h k Hj Hin Hk. rewrite <- (firstn_skipn k l) at 2. unfold all_s at 2. rewrite flat_map_app, cnt_app.
  fold (all_s (firstn k l)). fold (all_s (skipn k l)).
  enough (0 < cnt t q (all_s (firstn k l))) by lia. apply cnt_in. unfold all_s. apply in_flat_map. exists h.
  split; [|exact Hin]. apply nth_error_In with (n := j).
  rewrite <- Hj. rewrite <- (firstn_skipn k l) at 2. symmetry. apply nth_error_app1.
  rewrite firstn_length. assert (j < length l) by (apply nth_error_Some; congruence). lia.
Qed.

Lemma min_exists : forall (P : nat -> Prop) (f : nat -> nat) k, (forall p, p < k -> P p \/ ~ P p) ->
  (exists p, p < k /\ P p) -> exists p, p < k /\ P p /\ forall q, q < k -> P q -> f p <= f q.
Proof.
  intros P f k Hdec. induction k as [|k IH]; intros (p & Hp & HP); [lia|].
  assert (Hdec' : forall q, q < k -> P q \/ ~ P q) by (intros q Hq; apply Hdec; lia).
  destruct (Hdec k ltac:(lia)) as [Hk|Hk].
  - assert (Hex : (exists q, q < k /\ P q) \/ forall q, q < k -> ~ P q).
    { clear - Hdec'. induction k as [|k IH]; [right; intros; lia|].
      destruct IH as [(q & Hq & HP)|H]; [intros; apply Hdec'; lia|left; exists q; split; [lia|exact HP]|].
      destruct (Hdec' k ltac:(lia)) as [Hk|Hk]; [left; exists k; split; [lia|exact Hk]|].
      right. intros q Hq. destruct (Nat.eq_dec q k) as [->|]; [exact Hk|apply H; lia]. }
    destruct Hex as [Hex|Hno].
    + destruct (IH Hdec' Hex) as (m & Hm & HPm & Hmin). destruct (le_lt_dec (f m) (f k)).
      * exists m. split; [lia|split; [exact HPm|]]. intros q Hq HPq.
        destruct (Nat.eq_dec q k) as [->|]; [assumption|apply Hmin; [lia|exact HPq]].
      * exists k. split; [lia|split; [exact Hk|]]. intros q Hq HPq.
        destruct (Nat.eq_dec q k) as [->|]; [lia|]. pose proof (Hmin q ltac:(lia) HPq). lia.
    + exists k. split; [lia|split; [exact Hk|]]. intros q Hq HPq.
      destruct (Nat.eq_dec q k) as [->|]; [lia|]. exfalso. apply (Hno q); [lia|exact HPq].
  - assert (p < k) by (destruct (Nat.eq_dec p k) as [->|]; [contradiction|lia]).
    destruct (IH Hdec' (ex_intro _ p (conj H HP))) as (m & Hm & HPm & Hmin).
    exists m. split; [lia|split; [exact HPm|]]. intros q Hq HPq.
    destruct (Nat.eq_dec q k) as [->|]; [contradiction|apply Hmin; [lia|exact HPq]].
Qed.

Lemma pdone_dec : forall w : proc St Msg, pdone w \/ ~ pdone w.
Proof.
  intros w. unfold pdone. destruct (w_snd w); [|right; intros (E & _); discriminate].
  destruct (w_rcv w); [|right; intros (_ & E & _); discriminate].
  destruct (w_rest w); [auto|right; intros (_ & _ & E); discriminate].
Qed.

(** As long as some rank is not through, some action is possible. *)
Theorem phases_progress : forall tm, balanced -> single -> inside -> ordered tm ->
  forall n c, pexec g n c -> (exists p, p < pg_np g /\ ~ pdone (p_proc c p)) -> exists c', pstep g c c'.
Proof.
  intros tm B Sg Ins (T1 & T2) n c Hx Hex.
  assert (Hmon : forall p i j, i < j -> tm p i < tm p j).
  { intros p i j Hij. induction Hij as [|j Hij IH]; [apply T1|]. pose proof (T1 p j). lia. }
  (* position of every rank: length of prog minus rest *)
  set (pos := fun p => length (pg_ph g p) - length (w_rest (p_proc c p))).
  assert (Hpos : forall p, p < pg_np g -> where_at p (p_proc c p) (pos p)).
  { intros p Hp. destruct (where_exec n c Hx p Hp) as (k & W). pose proof W as (W1 & W2 & _).
    unfold pos. rewrite W1, skipn_length. replace (length (pg_ph g p) - (length (pg_ph g p) - k)) with k by lia. exact W. }
  (* a send is always possible *)
  assert (Hsd : (exists p, p < pg_np g /\ w_snd (p_proc c p) <> []) \/ forall p, p < pg_np g -> w_snd (p_proc c p) = []).
  { generalize (pg_np g) as k. induction k as [|k IH]; [right; intros; lia|].
    destruct IH as [(p & Hp & HP)|H]; [left; exists p; split; [lia|exact HP]|].
    destruct (w_snd (p_proc c k)) as [|x l] eqn:E.
    - right. intros p Hp. destruct (Nat.eq_dec p k) as [->|]; [exact E|apply H; lia].
    - left. exists k. split; [lia|congruence]. }
  destruct Hsd as [(p & Hp & HP)|Hns].
  { destruct (w_snd (p_proc c p)) as [|((t & q) & rd) ls] eqn:Es; [contradiction|].
    eexists. apply (p_send g c p _ t q rd [] ls Hp eq_refl). exact Es. }
  destruct (min_exists (fun p => ~ pdone (p_proc c p)) (fun p => tm p (pos p)) (pg_np g)) as (p & Hp & Hnd & Hmin).
  { intros p _. destruct (pdone_dec (p_proc c p)); tauto. }
  { exact Hex. }
  destruct (Hpos p Hp) as (W1 & W2 & W3 & W4).
  pose proof (Hns p Hp) as Es.
  destruct (w_rcv (p_proc c p)) as [|((t & q) & wr) lr] eqn:Er.
  { destruct (w_rest (p_proc c p)) as [|h k] eqn:Ek.
    - exfalso. apply Hnd. repeat split; assumption.
    - eexists. apply (p_enter g c p _ h k Hp eq_refl Es Er Ek). }
  (* a receive is missing *)
  destruct (pos p) as [|j] eqn:Ej; [destruct (W3 eq_refl); discriminate|].
  assert (Hj : exists h, nth_error (pg_ph g p) j = Some h).
  { destruct (nth_error (pg_ph g p) j) as [h|] eqn:E; [eauto|]. apply nth_error_None in E. lia. }
  destruct Hj as (h & Hh). destruct (W4 j h eq_refl Hh) as (_ & W5).
  assert (Hin : In (t, q) (rkeys (ph_rcv h))).
  { unfold rkeys. apply in_map_iff. exists (t, q, wr). split; [reflexivity|]. apply W5. left. reflexivity. }
  assert (Hq : q < pg_np g).
  { apply (Ins t p q Hp). unfold all_r. apply in_flat_map. exists h. split; [exact (nth_error_In _ _ Hh)|exact Hin]. }
  destruct (T2 p j h t q Hp Hh Hin) as (k' & h' & Hk' & Hs' & Ht').
  (* the sender has passed phase k' *)
  assert (Hlater : cnt t p (rem_s (p_proc c q)) = 0).
  { unfold rem_s. rewrite (Hns q Hq). cbn [skeys map app].
    destruct (pdone_dec (p_proc c q)) as [(D1 & D2 & D3)|Hndq]; [rewrite D3; reflexivity|].
    pose proof (Hmin q Hq Hndq) as Hle. cbn beta in Hle.
    destruct (Hpos q Hq) as (V1 & V2 & V3 & V4).
    assert (Hlt : tm q k' < tm q (pos q)) by lia.
    assert (Hk2 : k' < pos q).
    { destruct (le_lt_dec (pos q) k') as [H|H]; [|exact H].
      destruct (Nat.eq_dec (pos q) k') as [E|E]; [rewrite E in Hlt; lia|].
      pose proof (Hmon q (pos q) k' ltac:(lia)). lia. }
    pose proof (Sg t q p Hq) as Hsg.
    rewrite V1. pose proof (cnt_split_phase t p _ k' h' (pos q) Hk' Hs' Hk2) as Hc1. lia. }
  pose proof (pcons_exec B n c Hx t q p Hq Hp) as HC. rewrite Hlater in HC.
  assert (Hr : 0 < cnt t q (rem_r (p_proc c p))).
  { apply cnt_in. unfold rem_r. apply in_or_app. left. rewrite Er. left. reflexivity. }
  assert (Hn : exists m, In (t, q, p, m) (p_net c)).
  { assert (Hc0 : 0 < cntn t q p (p_net c)) by lia. unfold cntn in Hc0.
    destruct (filter (fun x => (fst (fst (fst x)) =? t) && (snd (fst (fst x)) =? q) && (snd (fst x) =? p)) (p_net c))
      as [|(((t' & q') & p') & m) l] eqn:F; [cbn in Hc0; lia|].
    assert (Hf : In (t', q', p', m) ((t', q', p', m) :: l)) by (left; reflexivity). rewrite <- F in Hf.
    apply filter_In in Hf. destruct Hf as (Hf & Hb). cbn [fst snd] in Hb.
    apply andb_true_iff in Hb. destruct Hb as (Hb & Hb3). apply andb_true_iff in Hb. destruct Hb as (Hb1 & Hb2).
    apply Nat.eqb_eq in Hb1, Hb2, Hb3. subst. exists m. exact Hf. }
  destruct Hn as (m & Hm). apply in_split in Hm. destruct Hm as (n1 & n2 & Hm).
  eexists. apply (p_recv g c p _ t q wr m [] lr n1 n2 Hp eq_refl); [exact Er|exact Hm].
Qed.

(** When all ranks are through no message is left over. *)
Theorem phases_drained : balanced -> inside -> forall n c, pexec g n c ->
  (forall p, p < pg_np g -> pdone (p_proc c p)) -> p_net c = [].
Proof.
  intros B Ins n c Hx Hd. destruct (p_net c) as [|(((t & p) & q) & m) l] eqn:E; [reflexivity|exfalso].
  assert (Hk : p < pg_np g /\ q < pg_np g).
  { assert (Hin : In (t, p, q, m) (p_net c)) by (rewrite E; left; reflexivity).
    clear E Hd. revert t p q m Hin. 
    assert (G : (forall t p q m, In (t, p, q, m) (p_net c) -> p < pg_np g /\ q < pg_np g) /\
                (forall p t q, p < pg_np g -> In (t, q) (rem_s (p_proc c p)) -> q < pg_np g)).
    { induction Hx as [|n c c' Hx (IH1 & IH2) Hs].
      - split; [intros t p q m' []|]. intros p t q Hp Hin. exact (proj1 (Ins t p q Hp) Hin).
      - destruct Hs as [c p w h k Hp Hw Hs0 Hr0 Hk | c p w t q rd l1 l2 Hp Hw Hl | c p w t q wr m0 l1 l2 n1 n2 Hp Hw Hl Hn].
        + split; [exact IH1|]. intros p' t q Hp' Hin. cbn [p_proc] in Hin. apply (IH2 p' t q Hp').
          destruct (Nat.eq_dec p' p) as [->|Hne]; [rewrite pset_same in Hin|rewrite pset_other in Hin by exact Hne; exact Hin].
          unfold rem_s in *. rewrite Hw, Hs0, Hk. exact Hin.
        + split.
          * intros t' p' q' m' Hin. cbn [p_net] in Hin. destruct Hin as [Eq|Hin]; [|exact (IH1 _ _ _ _ Hin)].
            injection Eq as <- <- <- <-. split; [exact Hp|]. apply (IH2 p t q Hp). unfold rem_s. rewrite Hw, Hl, skeys_app.
            rewrite !in_app_iff. left. right. left. reflexivity.
          * intros p' t' q' Hp' Hin. cbn [p_proc] in Hin. apply (IH2 p' t' q' Hp').
            destruct (Nat.eq_dec p' p) as [->|Hne]; [rewrite pset_same in Hin|rewrite pset_other in Hin by exact Hne; exact Hin].
            unfold rem_s in *. rewrite Hw, Hl. cbn [w_snd w_rest] in Hin. rewrite skeys_app in *.
            rewrite !in_app_iff in *. cbn [skeys map In]. tauto.
        + split.
          * intros t' p' q' m' Hin. cbn [p_net] in Hin. apply (IH1 t' p' q' m'). rewrite Hn.
            apply in_app_iff in Hin. apply in_or_app. cbn [In]. tauto.
          * intros p' t' q' Hp' Hin. cbn [p_proc] in Hin. apply (IH2 p' t' q' Hp').
            destruct (Nat.eq_dec p' p) as [->|Hne]; [rewrite pset_same in Hin|rewrite pset_other in Hin by exact Hne; exact Hin].
            unfold rem_s in *. rewrite Hw. exact Hin. }
    exact (proj1 G). }
  destruct Hk as (Hp & Hq). pose proof (pcons_exec B n c Hx t p q Hp Hq) as HC.
  destruct (Hd p Hp) as (D1 & D2 & D3). destruct (Hd q Hq) as (E1 & E2 & E3).
  unfold rem_s, rem_r in HC. rewrite D1, D3, E2, E3, E, cntn_cons, !Nat.eqb_refl in HC. cbn in HC. lia.
Qed.

Lemma all_done_dec : forall c : pcfg St Msg,
  (forall p, p < pg_np g -> pdone (p_proc c p)) \/ exists p, p < pg_np g /\ ~ pdone (p_proc c p).
Proof.
  intros c. generalize (pg_np g) as k. induction k as [|k IH]; [left; intros; lia|].
  destruct IH as [H|(p & Hp & H)]; [|right; exists p; split; [lia|exact H]].
  destruct (pdone_dec (p_proc c k)) as [Hd|Hd]; [left|right; exists k; split; [lia|exact Hd]].
  intros p Hp. destruct (Nat.eq_dec p k) as [->|]; [exact Hd|apply H; lia].
Qed.

(** No action is possible. *)
Definition pstuck (c : pcfg St Msg) : Prop := forall c', ~ pstep g c c'.

(** An execution that can not go on is complete: all ranks are through and all
    messages were received. *)
Theorem phases_complete : forall tm, balanced -> single -> inside -> ordered tm ->
  forall n c, pexec g n c -> pstuck c -> (forall p, p < pg_np g -> pdone (p_proc c p)) /\ p_net c = [].
Proof.
  intros tm B Sg Ins Od n c Hx Hs. destruct (all_done_dec c) as [Hd|Hn].
  - split; [exact Hd|]. exact (phases_drained B Ins n c Hx Hd).
  - exfalso. destruct (phases_progress tm B Sg Ins Od n c Hx Hn) as (c' & H). exact (Hs c' H).
Qed.

Lemma done_stuck : forall c, (forall p, p < pg_np g -> pdone (p_proc c p)) -> pstuck c.
Proof.
  intros c Hd c' Hs. destruct Hs as [c p w h k Hp Hw Hs0 Hr0 Hk | c p w t q rd l1 l2 Hp Hw Hl | c p w t q wr m l1 l2 n1 n2 Hp Hw Hl Hn];
    destruct (Hd p Hp) as (D1 & D2 & D3); rewrite Hw in *; [congruence| |].
  - rewrite D1 in Hl. destruct l1; discriminate.
  - rewrite D2 in Hl. destruct l1; discriminate.
Qed.

(** There is such an execution. *)
Theorem phases_run : forall tm, balanced -> single -> inside -> ordered tm ->
  exists n c, pexec g n c /\ pstuck c.
Proof.
  intros tm B Sg Ins Od.
  assert (H : forall k n c, pexec g n c -> sumn (fun p => proc_size (p_proc c p)) (pg_np g) <= k ->
            exists n c, pexec g n c /\ pstuck c).
  { induction k as [|k IH]; intros n c Hx Hk;
      (destruct (all_done_dec c) as [Hd|Hn]; [exists n, c; split; [exact Hx|apply done_stuck; exact Hd]|]);
      destruct (phases_progress tm B Sg Ins Od n c Hx Hn) as (c' & Hs);
      pose proof (psize_exec _ _ Hx) as E1; pose proof (psize_exec _ _ (pxS g n c c' Hx Hs)) as E2.
    - lia.
    - apply (IH (S n) c'); [exact (pxS g n c c' Hx Hs)|lia]. }
  exact (H _ 0 (pinit g) (px0 g) (le_n _)).
Qed.

End Term.
