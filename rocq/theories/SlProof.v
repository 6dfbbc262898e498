(** Invariant of a SCULPIN port. *)
From Coq Require Import List Arith Bool Lia Permutation Sorted.
From Verif Require Import SlModel.
Import ListNotations.

(** The packets that came, with the times. *)
Definition tried (l : list op) : list (nat * raw) :=
  flat_map (fun a => match a with Try t r => [(t, r)] | Pull => [] end) l.
Definition of_prio (x : nat) (r : nat * raw) : bool := prio (snd r) =? x.
Definition mark (k : pkt) : nat * raw := (arr k, body k).

(** The order of priority_compare as a relation. *)
Definition lower (a b : pkt) : Prop :=
  prio (body a) < prio (body b) \/
  prio (body a) = prio (body b) /\ (arr a < arr b \/ arr a = arr b /\ seq a < seq b).
Lemma before_spec a b : before a b = true <-> lower a b.
Proof.
  unfold before, lower.
  destruct (Nat.eqb_spec (prio (body a)) (prio (body b))); [destruct (Nat.eqb_spec (arr a) (arr b))|];
    rewrite Nat.ltb_lt; lia.
Qed.
Lemma before_false a b : before a b = false -> ~ lower a b.
Proof. intros E H. apply before_spec in H. congruence. Qed.

Definition newer (k : pkt) (q : list pkt) : Prop := Forall (fun x => arr x <= arr k /\ seq x < seq k) q.

Lemma insert_spec k : forall q, newer k q -> StronglySorted lower q ->
  Permutation (k :: q) (insert k q) /\ StronglySorted lower (insert k q) /\
  forall x, filter (of_prio x) (map mark (insert k q)) =
            filter (of_prio x) (map mark q) ++ filter (of_prio x) [mark k].
Proof.
  induction q as [|y q IH]; intros N S; simpl.
  - repeat split; auto. constructor; constructor.
  - inversion N; subst. inversion S; subst.
    destruct (before k y) eqn:B.
    + apply before_spec in B. split; [auto|]. split.
      * constructor; auto. constructor; auto. eapply Forall_impl; [|exact H4].
        intros z Hz. unfold lower in *. lia.
      * intros x.
        assert (P : Forall (fun z => prio (body k) < prio (body z)) (y :: q)).
        { unfold newer in N. apply Forall_forall. intros z Hz. rewrite Forall_forall in H4, N.
          destruct (N z Hz). assert (Hzy : z = y \/ lower y z) by (destruct Hz; auto).
          unfold lower in *. destruct Hzy as [->|Hzy]; lia. }
        assert (Z : of_prio x (mark k) = true -> filter (of_prio x) (map mark (y :: q)) = []).
        { intros E. apply Nat.eqb_eq in E. clear - P E. induction (y :: q) as [|z l IH]; simpl; auto.
          inversion P; subst. unfold of_prio at 1. cbn [mark snd] in *.
          destruct (Nat.eqb_spec (prio (body z)) (prio (body k))); [lia|]. auto. }
        change (map mark (k :: y :: q)) with (mark k :: map mark (y :: q)). cbn [filter].
        destruct (of_prio x (mark k)); [|now rewrite app_nil_r].
        specialize (Z eq_refl). simpl in Z |- *. rewrite Z. reflexivity.
    + destruct (before y k) eqn:B2.
      * destruct (IH H2 H3) as (P & SS & F). split; [|split].
        -- etransitivity; [apply perm_swap|]. now constructor.
        -- constructor; auto. apply before_spec in B2. apply Forall_forall. intros z Hz.
           apply (Permutation_in _ (Permutation_sym P)) in Hz as [<-|Hz]; auto.
           rewrite Forall_forall in H4. auto.
        -- intros x. simpl map. cbn [filter]. rewrite F. simpl. destruct (of_prio x (mark y)); auto.
      * apply before_false in B, B2. unfold lower in *. lia.
Qed.

(** The times of a single server: each packet starts when it has come and the one before has left. *)
Fixpoint served (d f : nat) (l : list (pkt * nat)) : Prop :=
  match l with
  | [] => True
  | (k, s) :: t => s = Nat.max (arr k) f /\ served d (s + size (body k) * d) t
  end.
Fixpoint finish (d f : nat) (l : list (pkt * nat)) : nat :=
  match l with [] => f | (k, s) :: t => finish d (s + size (body k) * d) t end.
Lemma served_app d l : forall f k s, served d f l -> s = Nat.max (arr k) (finish d f l) ->
  served d f (l ++ [(k, s)]).
Proof.
  induction l as [|[x u] l IH]; simpl; intros f k s H E; [auto|]. destruct H. split; auto.
Qed.
Lemma finish_app d l : forall f k s, finish d f (l ++ [(k, s)]) = s + size (body k) * d.
Proof. induction l as [|[x u] l IH]; simpl; auto. Qed.

Record inv (d : nat) (ops : list op) (now : nat) (p : port) : Prop := {
  v_sorted : StronglySorted lower (queue p);
  v_arr : Forall (fun k => arr k <= now /\ seq k < seqn p) (queue p);
  v_pull : (queue p = [] /\ pulls p = []) \/ (queue p <> [] /\ pulls p = [free p] /\ now <= free p);
  v_served : served d 0 (sent p);
  v_free : finish d 0 (sent p) = free p;
  v_past : Forall (fun x => snd x <= now /\ arr (fst x) <= snd x) (sent p);
  v_prio : forall i j a s b u, i < j -> nth_error (sent p) i = Some (a, s) -> nth_error (sent p) j = Some (b, u) ->
     prio (body b) < prio (body a) -> s <= arr b;
  v_prioq : forall a s b, In (a, s) (sent p) -> In b (queue p) -> prio (body b) < prio (body a) -> s <= arr b;
  v_fifo : forall x, filter (of_prio x) (tried ops) =
     filter (of_prio x) (map (fun y => mark (fst y)) (sent p)) ++ filter (of_prio x) (map mark (queue p)) }.

Lemma inv0 d now : inv d [] now port0.
Proof.
  split; simpl; auto.
  - constructor.
  - intros i j a s b u _ E. destruct i; discriminate.
  - intros a s b [].
Qed.

(** Sending the first packet, at the time the link is free or later with nothing waiting. *)
Lemma tried_snoc ops a : tried (ops ++ [a]) = tried ops ++ tried [a].
Proof. unfold tried. now rewrite flat_map_app. Qed.

Lemma nth_snoc A (l : list A) x i y : nth_error (l ++ [x]) i = Some y ->
  nth_error l i = Some y \/ (i = length l /\ y = x).
Proof.
  intros E. destruct (Nat.lt_ge_cases i (length l)) as [L|L].
  - rewrite nth_error_app1 in E by auto. auto.
  - rewrite nth_error_app2 in E by auto. destruct (i - length l) as [|z] eqn:Z; simpl in E.
    + right. split; [lia|congruence].
    + destruct z; discriminate.
Qed.

Lemma step_inv d ops now p a : inv d ops now p ->
  match step true d a now p with
  | Ok now' p' => inv d (ops ++ [a]) now' p' /\ now <= now'
  | Abort => False
  | Never => True
  end.
Proof.
  intros [V1 V2 V3 V4 V5 V6 V7 V8 V9]. destruct a as [t r|]; cbn [step].
  - destruct (Nat.leb_spec now t) as [L|]; [|exact I]. cbn [andb].
    destruct (forallb (fun x => t <=? x) (pulls p)) eqn:FP; [|exact I].
    split; [|exact L]. unfold try_send. cbn [negb]. set (k := mkpkt r t (seqn p)).
    assert (NW : newer k (queue p)).
    { eapply Forall_impl; [|exact V2]. unfold k. simpl. intros x. lia. }
    destruct (insert_spec k (queue p) NW V1) as (I1 & I2 & I3).
    assert (FIFO : forall x, filter (of_prio x) (tried (ops ++ [Try t r])) =
      filter (of_prio x) (map (fun y => mark (fst y)) (sent p)) ++ filter (of_prio x) (map mark (insert k (queue p)))).
    { intros x. rewrite tried_snoc, filter_app, V9, I3, <- app_assoc. reflexivity. }
    assert (ARR : Forall (fun x => arr x <= t /\ seq x < S (seqn p)) (insert k (queue p))).
    { apply Forall_forall. intros x Hx. apply (Permutation_in _ (Permutation_sym I1)) in Hx as [<-|Hx].
      - unfold k. simpl. lia.
      - rewrite Forall_forall in V2. apply V2 in Hx. lia. }
    assert (PAST : Forall (fun x => snd x <= t /\ arr (fst x) <= snd x) (sent p)).
    { eapply Forall_impl; [|exact V6]. simpl. intros x. lia. }
    assert (PQ : forall a s b, In (a, s) (sent p) -> In b (insert k (queue p)) ->
      prio (body b) < prio (body a) -> s <= arr b).
    { intros a s b Ha Hb. apply (Permutation_in _ (Permutation_sym I1)) in Hb as [<-|Hb]; [|now apply V8].
      intros _. rewrite Forall_forall in PAST. apply PAST in Ha. unfold k. simpl in *. lia. }
    assert (NE : insert k (queue p) <> []).
    { intros E. rewrite E in I1. now apply Permutation_sym, Permutation_nil in I1. }
    destruct (Nat.ltb_spec t (free p)) as [LF|LF].
    + split; cbn [queue seqn pulls free sent]; auto. right. split; [exact NE|].
      destruct V3 as [[-> ->]|(Q & -> & P)]; simpl; [|destruct (queue p); [congruence|]]; auto with arith.
    + destruct (queue p) as [|y q] eqn:Q.
      * unfold send. cbn [queue pulls sent free seqn].
        assert (F : (if free p <? t then t else free p) = t) by (destruct (Nat.ltb_spec (free p) t); lia).
        rewrite F. replace (t + (t - t)) with t by lia.
        split; cbn [queue seqn pulls free sent].
        -- constructor.
        -- constructor.
        -- left. destruct V3 as [[_ V3]|(V3 & _)]; [auto|congruence].
        -- apply served_app; auto. rewrite V5. unfold k. simpl. lia.
        -- rewrite finish_app. reflexivity.
        -- apply Forall_app. split; auto.
        -- intros i j a s b u Hij Ei Ej Hp. apply nth_snoc in Ei, Ej.
           destruct Ei as [Ei|[Ei1 Ei2]], Ej as [Ej|[Ej1 Ej2]].
           ++ exact (V7 i j a s b u Hij Ei Ej Hp).
           ++ injection Ej2 as -> ->. apply nth_error_In in Ei. rewrite Forall_forall in PAST.
              apply PAST in Ei. unfold k. simpl in *. lia.
           ++ assert (nth_error (sent p) j <> None) by congruence. apply nth_error_Some in H. lia.
           ++ lia.
        -- intros a s b Ha [].
        -- intros x. rewrite FIFO. simpl insert. rewrite map_app, filter_app, <- app_assoc. simpl. now rewrite app_nil_r.
      * split; cbn [queue seqn pulls free sent]; auto. right. split; [exact NE|].
        destruct V3 as [[Z _]|(_ & P & T)]; [discriminate|]. split; auto.
        rewrite P in FP. simpl in FP. rewrite andb_true_r in FP. apply Nat.leb_le in FP. lia.
  - destruct V3 as [[Q P]|(Q & P & T)]; rewrite P; [exact I|]. unfold pull_next. cbn [queue].
    destruct (queue p) as [|k q] eqn:QQ; [congruence|]. split; [|exact T].
    unfold send. cbn [queue pulls sent free seqn].
    rewrite Nat.ltb_irrefl, Nat.sub_diag, Nat.add_0_r.
    set (t := free p) in *. set (f' := t + size (body k) * d).
    inversion V1; subst. inversion V2; subst.
    assert (PAST : Forall (fun x => snd x <= t /\ arr (fst x) <= snd x) (sent p)).
    { eapply Forall_impl; [|exact V6]. simpl. intros x. lia. }
    assert (SV : served d 0 (sent p ++ [(k, t)])).
    { apply served_app; auto. rewrite V5. fold t. lia. }
    assert (FN : finish d 0 (sent p ++ [(k, t)]) = f') by apply finish_app.
    assert (PA : Forall (fun x => snd x <= t /\ arr (fst x) <= snd x) (sent p ++ [(k, t)])).
    { apply Forall_app. split; auto. constructor; [|constructor]. simpl. lia. }
    assert (PR : forall i j a s b u, i < j -> nth_error (sent p ++ [(k, t)]) i = Some (a, s) ->
      nth_error (sent p ++ [(k, t)]) j = Some (b, u) -> prio (body b) < prio (body a) -> s <= arr b).
    { intros i j a s b u Hij Ei Ej Hp. apply nth_snoc in Ei, Ej.
      destruct Ei as [Ei|[Ei1 Ei2]], Ej as [Ej|[Ej1 Ej2]].
      - exact (V7 i j a s b u Hij Ei Ej Hp).
      - injection Ej2 as -> ->. apply nth_error_In in Ei. eapply V8; eauto. now left.
      - assert (X : nth_error (sent p) j <> None) by congruence. apply nth_error_Some in X. lia.
      - lia. }
    assert (PQ : forall a s b, In (a, s) (sent p ++ [(k, t)]) -> In b q -> prio (body b) < prio (body a) -> s <= arr b).
    { intros a s b Ha Hb Hp. apply in_app_iff in Ha as [Ha|[[= <- <-]|[]]].
      - eapply V8; eauto. now right.
      - rewrite Forall_forall in H2. apply H2 in Hb. unfold lower in Hb. lia. }
    assert (FI : forall x, filter (of_prio x) (tried (ops ++ [Pull])) =
      filter (of_prio x) (map (fun y => mark (fst y)) (sent p ++ [(k, t)])) ++ filter (of_prio x) (map mark q)).
    { intros x. rewrite tried_snoc, filter_app, V9, map_app, filter_app, <- !app_assoc. f_equal. simpl.
      rewrite app_nil_r. now destruct (of_prio x (mark k)). }
    assert (AR : Forall (fun x => arr x <= t /\ seq x < seqn p) q).
    { eapply Forall_impl; [|exact H4]. simpl. intros x. lia. }
    destruct q as [|y q].
    + split; cbn [queue seqn pulls free sent]; auto; constructor.
    + split; cbn [queue seqn pulls free sent]; auto. right. split; [discriminate|]. split; [reflexivity|]. unfold f'. lia.
Qed.

Lemma run_inv d : forall l ops now p, inv d ops now p ->
  match run true d l now p with
  | Ok now' p' => inv d (ops ++ l) now' p' /\ now <= now'
  | Abort => False
  | Never => True
  end.
Proof.
  induction l as [|a l IH]; intros ops now p V; cbn [run].
  - rewrite app_nil_r. auto.
  - pose proof (step_inv d ops now p a V) as S. destruct (step true d a now p) as [n1 p1| |]; auto.
    destruct S as [S L]. specialize (IH _ _ _ S). destruct (run true d l n1 p1) as [n2 p2| |]; auto.
    rewrite <- app_assoc in IH. simpl in IH. destruct IH. split; auto. lia.
Qed.
