(** Invariants of the delivery of messages on a node. *)
From Coq Require Import List Arith Bool ZArith Lia Permutation.
From Verif Require Import NdModel NdSpec.
Import ListNotations.

(** *** Maps *)
Lemma keq_spec a b : reflect (a = b) (keq a b).
Proof.
  destruct a as [a1 a2], b as [b1 b2]. unfold keq; simpl.
  destruct (Nat.eqb_spec a1 b1), (Nat.eqb_spec a2 b2); constructor; congruence.
Qed.
Lemma keq_refl k : keq k k = true.
Proof. destruct (keq_spec k k); congruence. Qed.
Lemma keq_neq a b : a <> b -> keq a b = false.
Proof. destruct (keq_spec a b); congruence. Qed.

Lemma find1_del_same V k (l : list (nat * V)) : find1 k (del1 k l) = None.
Proof.
  induction l as [|[a v] l IH]; simpl; auto.
  destruct (Nat.eqb_spec a k); simpl; auto. destruct (Nat.eqb_spec a k); [congruence|auto].
Qed.
Lemma find1_del_other V k j (l : list (nat * V)) : j <> k -> find1 j (del1 k l) = find1 j l.
Proof.
  intros N. induction l as [|[a v] l IH]; simpl; auto.
  destruct (Nat.eqb_spec a k); simpl; auto.
  - subst. destruct (Nat.eqb_spec k j); [congruence|auto].
  - rewrite IH. reflexivity.
Qed.
Lemma find1_put_same V k v (l : list (nat * V)) : find1 k (put1 k v l) = Some v.
Proof. simpl. now rewrite Nat.eqb_refl. Qed.
Lemma find1_put_other V k j v (l : list (nat * V)) : j <> k -> find1 j (put1 k v l) = find1 j l.
Proof.
  intros N. simpl. destruct (Nat.eqb_spec k j); [congruence|]. now apply find1_del_other.
Qed.
Lemma find2_del_same k l : find2 k (del2 k l) = None.
Proof.
  induction l as [|[a v] l IH]; simpl; auto.
  destruct (keq_spec a k); simpl; auto. destruct (keq_spec a k); [congruence|auto].
Qed.
Lemma find2_del_other k j l : j <> k -> find2 j (del2 k l) = find2 j l.
Proof.
  intros N. induction l as [|[a v] l IH]; simpl; auto.
  destruct (keq_spec a k); simpl; auto.
  - subst. destruct (keq_spec k j); [congruence|auto].
  - rewrite IH. reflexivity.
Qed.
Lemma find2_put_same k v l : find2 k (put2 k v l) = Some v.
Proof. simpl. now rewrite keq_refl. Qed.
Lemma find2_put_other k j v l : j <> k -> find2 j (put2 k v l) = find2 j l.
Proof.
  intros N. simpl. rewrite keq_neq by congruence. now apply find2_del_other.
Qed.
Lemma find2_in k l v : find2 k l = Some v -> In k (map fst l).
Proof.
  induction l as [|[a w] l IH]; simpl; [discriminate|].
  destruct (keq_spec a k); auto.
Qed.
Lemma find2_none k l : find2 k l = None -> ~ In k (map fst l).
Proof.
  induction l as [|[a w] l IH]; simpl; auto.
  destruct (keq_spec a k); [discriminate|]. intros E [H|H]; [congruence|now apply IH].
Qed.
Lemma del2_in k j l : In j (map fst (del2 k l)) <-> j <> k /\ In j (map fst l).
Proof.
  induction l as [|[a w] l IH]; simpl; [tauto|].
  destruct (keq_spec a k); simpl; rewrite ?IH; intuition congruence.
Qed.
Lemma del2_nodup k l : NoDup (map fst l) -> NoDup (map fst (del2 k l)).
Proof.
  induction l as [|[a w] l IH]; simpl; intros H; [constructor|]. inversion H; subst.
  destruct (keq_spec a k); simpl; auto. constructor; auto. rewrite del2_in. tauto.
Qed.
Lemma put2_nodup k v l : NoDup (map fst l) -> NoDup (map fst (put2 k v l)).
Proof.
  intros H. simpl. constructor; [|now apply del2_nodup]. rewrite del2_in. tauto.
Qed.

(** *** Filters *)
Lemma filter_nil A (f : A -> bool) l : (forall x, In x l -> f x = false) -> filter f l = [].
Proof.
  induction l as [|a l IH]; simpl; intros H; auto.
  rewrite (H a) by auto. apply IH. auto.
Qed.
Lemma filter_nil_inv A (f : A -> bool) l x : filter f l = [] -> In x l -> f x = false.
Proof.
  intros E H. destruct (f x) eqn:F; auto.
  assert (In x (filter f l)) by (apply filter_In; auto). rewrite E in *. contradiction.
Qed.
Lemma filter_filter_id A (f g : A -> bool) l :
  (forall x, In x l -> f x = true -> g x = true) -> filter f (filter g l) = filter f l.
Proof.
  induction l as [|a l IH]; simpl; intros H; auto.
  destruct (g a) eqn:G; simpl; destruct (f a) eqn:F; rewrite IH; auto.
  rewrite (H a) in G; auto; discriminate.
Qed.
Lemma filter_filter_nil A (f g : A -> bool) l :
  (forall x, In x l -> f x = true -> g x = false) -> filter f (filter g l) = [].
Proof.
  intros H. apply filter_nil. intros x Hx. apply filter_In in Hx as [H1 H2].
  destruct (f x) eqn:F; auto. now rewrite (H x) in H2.
Qed.

Lemma meant_cq m : meant m = m_cq m.
Proof. destruct m as [k r s [|] d]; reflexivity. Qed.
Lemma aims_spec k c m : aims k c m = true <-> m_key m = k /\ m_cq m = c.
Proof.
  unfold aims, cq_is. rewrite meant_cq. destruct m as [[a r] rc sc ak d], k as [b q]; simpl.
  rewrite !andb_true_iff, !Nat.eqb_eq.
  destruct c as [c|], (m_cq _) as [x|]; rewrite ?Nat.eqb_eq;
    split; intros; intuition; subst; try congruence; auto.
Qed.

(** *** The transport *)
Definition tp_ok (k : key) (t : tport) : Prop :=
  forall c m, In (c, m) (held t) -> m_key m = k /\ m_cq m = Some c /\ forall h, nth_error (queues t) c <> Some (Some h).

Lemma tp_incoming_ok m t t' o : tp_ok (m_key m) t -> tp_incoming m t = Ok (t', o) -> tp_ok (m_key m) t'.
Proof.
  intros H E. unfold tp_incoming in E. destruct (m_cq m) as [c|] eqn:C; [|now injection E as <- <-].
  destruct (nth_error (queues t) c) as [[h|]|] eqn:Q; try discriminate; injection E as <- <-; auto.
  intros c' m' I. simpl in *. apply in_app_iff in I as [I|[I|[]]]; auto.
  injection I as <- <-. rewrite Q. repeat split; auto; discriminate.
Qed.

Lemma tp_incoming_content k c m t t' o :
  tp_ok (m_key m) t -> tp_incoming m t = Ok (t', o) ->
  let F := filter (aims k c) in
  F (map snd o) ++ F (map snd (held t')) = F (map snd (held t)) ++ F [m].
Proof.
  intros H E F. unfold tp_incoming in E.
  destruct (m_cq m) as [x|] eqn:C.
  - destruct (nth_error (queues t) x) as [[h|]|] eqn:Q; try discriminate; injection E as <- <-; unfold F.
    + simpl. destruct (aims k c m) eqn:A; [|now rewrite app_nil_r].
      apply aims_spec in A as [A1 A2].
      assert (Z : filter (aims k c) (map snd (held t)) = []).
      { apply filter_nil. intros y Hy. apply in_map_iff in Hy as [[c' m'] [<- Hy]]. simpl.
        destruct (aims k c m') eqn:B; auto. apply aims_spec in B as [B1 B2].
        apply H in Hy as (H1 & H2 & H3).
        assert (c' = x) by congruence. subst. now apply H3 in Q. }
      now rewrite Z.
    + simpl held. now rewrite map_app, filter_app.
  - injection E as <- <-. unfold F. simpl. destruct (aims k c m) eqn:A; [|now rewrite app_nil_r].
    apply aims_spec in A as [A1 A2].
    assert (Z : filter (aims k c) (map snd (held t)) = []).
    { apply filter_nil. intros y Hy. apply in_map_iff in Hy as [[c' m'] [<- Hy]]. simpl.
      destruct (aims k c m') eqn:B; auto. apply aims_spec in B as [B1 B2].
      apply H in Hy as (H1 & H2 & H3). congruence. }
    now rewrite Z.
Qed.

Lemma tp_all_ok k l : forall t t' o, (forall m, In m l -> m_key m = k) ->
  tp_ok k t -> tp_all l t = Ok (t', o) -> tp_ok k t'.
Proof.
  induction l as [|m l IH]; simpl; intros t t' o Hk H E; [now injection E as <- <-|].
  destruct (tp_incoming m t) as [[t1 o1]|] eqn:E1; [|discriminate]. simpl in E.
  destruct (tp_all l t1) as [[t2 o2]|] eqn:E2; [|discriminate]. injection E as <- <-.
  assert (K : m_key m = k) by auto. eapply IH; [| |eassumption]; auto.
  rewrite <- K in H |- *. eapply tp_incoming_ok; eauto.
Qed.
Lemma tp_all_content k0 k c l : forall t t' o, (forall m, In m l -> m_key m = k0) ->
  tp_ok k0 t -> tp_all l t = Ok (t', o) ->
  let F := filter (aims k c) in
  F (map snd o) ++ F (map snd (held t')) = F (map snd (held t)) ++ F l.
Proof.
  induction l as [|m l IH]; intros t t' o Hk H E F; cbn [tp_all] in E.
  - injection E as <- <-. unfold F; simpl. now rewrite app_nil_r.
  - destruct (tp_incoming m t) as [[t1 o1]|] eqn:E1; [|discriminate]. simpl in E.
    destruct (tp_all l t1) as [[t2 o2]|] eqn:E2; [|discriminate]. injection E as <- <-.
    assert (K : m_key m = k0) by (apply Hk; now left).
    rewrite <- K in H.
    pose proof (tp_incoming_content k c m t t1 o1 H E1) as C1. cbn zeta in C1.
    assert (H1 : tp_ok k0 t1) by (rewrite <- K; eapply tp_incoming_ok; eauto).
    pose proof (IH t1 t2 o2 (fun x hx => Hk x (or_intror hx)) H1 E2) as C2. cbn zeta in C2.
    unfold F. rewrite map_app, filter_app, <- app_assoc, C2, app_assoc, C1, <- app_assoc.
    f_equal. change (m :: l) with ([m] ++ l). now rewrite (filter_app _ [m]).
Qed.
(** Queues only change through the process itself. *)
Lemma tp_incoming_queues m t t' o : tp_incoming m t = Ok (t', o) -> queues t' = queues t /\ free t' = free t.
Proof.
  unfold tp_incoming. destruct (m_cq m) as [c|]; [|now intros [= <- <-]].
  destruct (nth_error (queues t) c) as [[h|]|]; try discriminate; now intros [= <- <-].
Qed.
Lemma tp_all_queues l : forall t t' o, tp_all l t = Ok (t', o) -> queues t' = queues t.
Proof.
  induction l as [|m l IH]; simpl; intros t t' o E; [now injection E as <- <-|].
  destruct (tp_incoming m t) as [[t1 o1]|] eqn:E1; [|discriminate]. simpl in E.
  destruct (tp_all l t1) as [[t2 o2]|] eqn:E2; [|discriminate]. injection E as <- <-.
  apply tp_incoming_queues in E1 as [E1 _]. apply IH in E2. congruence.
Qed.
Lemma tp_incoming_total m t : ~ In None (queues t) -> exists t' o, tp_incoming m t = Ok (t', o).
Proof.
  intros H. unfold tp_incoming. destruct (m_cq m) as [c|]; [|eauto].
  destruct (nth_error (queues t) c) as [[h|]|] eqn:Q; eauto.
  apply nth_error_In in Q. contradiction.
Qed.
Lemma tp_all_total l : forall t, ~ In None (queues t) -> exists t' o, tp_all l t = Ok (t', o).
Proof.
  induction l as [|m l IH]; simpl; intros t H; eauto.
  destruct (tp_incoming_total m t H) as (t1 & o1 & E1). rewrite E1. simpl.
  destruct (IH t1) as (t2 & o2 & E2); [now rewrite (proj1 (tp_incoming_queues _ _ _ _ E1))|].
  rewrite E2. simpl. eauto.
Qed.

(** *** The node *)
Definition held_of (k : key) (n : node) : list msg :=
  match srv n with
  | Some s => match find2 k (procs s) with Some (Some t) => map snd (held t) | _ => [] end
  | None => []
  end.
Definition waits (n : node) : list msg := match srv n with Some s => waiting s | None => [] end.
Definition content (k : key) (c : option nat) (n : node) : list msg :=
  let F := filter (aims k c) in
  F (ended n) ++ F (held_of k n) ++ F (waits n) ++
  F (map snd (delayed (nos n))) ++ F (map snd (pend (nos n))).

Record srv_ok (s : server) : Prop := {
  so_nodup : NoDup (map fst (procs s));
  so_tp : forall k t, find2 k (procs s) = Some (Some t) -> tp_ok k t;
  so_wait : forall m, In m (waiting s) -> find2 (m_key m) (procs s) = Some None;
  so_null : forall k, find2 k (procs s) = Some None -> exists m, In m (waiting s) /\ m_key m = k }.
Record inv (n : node) : Prop := {
  i_name : forall x, In x (pend (nos n)) -> fst x = server_name;
  i_some : forall s, srv n = Some s ->
    find1 server_name (libs (nos n)) = Some (gen s) /\ find1 (gen s) (refs (nos n)) = Some 1%Z /\
    pend (nos n) = [] /\ procs s <> [] /\ gen s < made n /\ srv_ok s;
  i_none : srv n = None -> find1 server_name (libs (nos n)) = None;
  i_fresh : forall l, made n <= l -> find1 l (refs (nos n)) = None }.

Lemma inv0 : inv node0.
Proof. split; simpl; intros; try contradiction; try discriminate; auto. Qed.

Lemma srv_incoming_spec m s s' o : srv_ok s -> srv_incoming m s = Ok (s', o) ->
  srv_ok s' /\ gen s' = gen s /\ procs s' <> [] /\
  forall k c, let F := filter (aims k c) in
    let h x := match find2 k (procs x) with Some (Some t) => map snd (held t) | _ => [] end in
    F (map snd o) ++ F (h s') ++ F (waiting s') = F (h s) ++ F (waiting s) ++ F [m].
Proof.
  intros [H1 H2 H3 H4] E. unfold srv_incoming in E.
  assert (NW : forall t, find2 (m_key m) (procs s) = Some (Some t) ->
    forall x, In x (waiting s) -> m_key x <> m_key m).
  { intros t Q x Hx K. apply H3 in Hx. rewrite K in Hx. congruence. }
  assert (cases : (exists t, find2 (m_key m) (procs s) = Some (Some t)) \/
    ((find2 (m_key m) (procs s) = None \/ find2 (m_key m) (procs s) = Some None) /\
     s' = mksrv (gen s) (put2 (m_key m) None (procs s)) (waiting s ++ [m]) /\ o = [])).
  { destruct (find2 (m_key m) (procs s)) as [[t|]|]; eauto; right; injection E as <- <-; auto. }
  destruct cases as [[t Q]|(Q & -> & ->)].
  - rewrite Q in E. destruct (tp_incoming m t) as [[t' o']|] eqn:E1; [|discriminate].
    simpl in E. injection E as <- <-.
    assert (T : tp_ok (m_key m) t') by (eapply tp_incoming_ok; eauto).
    split; [|split; [reflexivity|split; [simpl; discriminate|]]].
    + split; cbn [procs waiting gen].
      * now apply put2_nodup.
      * intros k u. destruct (keq_spec k (m_key m)) as [->|N].
        -- rewrite find2_put_same. intros [= <-]. auto.
        -- rewrite find2_put_other by auto. apply H2.
      * intros x Hx. rewrite find2_put_other by (eapply NW; eauto). now apply H3.
      * intros k. destruct (keq_spec k (m_key m)) as [->|N].
        -- rewrite find2_put_same. discriminate.
        -- rewrite find2_put_other by auto. apply H4.
    + intros k c F h. unfold h. cbn [procs waiting].
      pose proof (tp_incoming_content k c m t t' o' (H2 _ _ Q) E1) as C. cbn zeta in C.
      destruct (keq_spec k (m_key m)) as [->|N].
      * rewrite find2_put_same, Q. unfold F.
        assert (Z : filter (aims (m_key m) c) (waiting s) = []).
        { apply filter_nil. intros x Hx. destruct (aims (m_key m) c x) eqn:A; auto.
          apply aims_spec in A as [A _]. now apply (NW t Q x) in A. }
        rewrite Z, app_nil_r, C. reflexivity.
      * rewrite find2_put_other by auto. unfold F.
        assert (A : aims k c m = false).
        { destruct (aims k c m) eqn:A; auto. apply aims_spec in A as [A _]. congruence. }
        assert (O : filter (aims k c) (map snd o') = []).
        { unfold tp_incoming in E1. destruct (m_cq m) as [x|]; [|injection E1 as <- <-; simpl; now rewrite A].
          destruct (nth_error (queues t) x) as [[u|]|]; try discriminate; injection E1 as <- <-; simpl; auto.
          now rewrite A. }
        rewrite O. cbn [filter]. rewrite A, app_nil_r. reflexivity.
  - split; [|split; [reflexivity|split; [simpl; discriminate|]]].
    + split; cbn [procs waiting gen].
      * now apply put2_nodup.
      * intros k u. destruct (keq_spec k (m_key m)) as [->|N].
        -- rewrite find2_put_same. discriminate.
        -- rewrite find2_put_other by auto. apply H2.
      * intros x Hx. destruct (keq_spec (m_key x) (m_key m)) as [->|N]; [apply find2_put_same|].
        rewrite find2_put_other by auto. apply in_app_iff in Hx as [Hx|[<-|[]]]; [auto|congruence].
      * intros k. destruct (keq_spec k (m_key m)) as [->|N].
        -- intros _. exists m. split; auto. apply in_app_iff. right. now left.
        -- rewrite find2_put_other by auto. intros Hk. apply H4 in Hk as (x & X1 & X2).
           exists x. split; auto. apply in_app_iff. auto.
    + intros k c F h. unfold h. cbn [procs waiting]. unfold F. simpl map. simpl filter at 1.
      rewrite filter_app. rewrite app_nil_l. f_equal.
      destruct (keq_spec k (m_key m)) as [->|N].
      * rewrite find2_put_same. destruct Q as [->| ->]; reflexivity.
      * rewrite find2_put_other by auto. reflexivity.
Qed.

Lemma call_spec l m n n' : inv n -> call l m n = Ok n' ->
  inv n' /\ nos n' = nos n /\
  forall k c, let F := filter (aims k c) in
    F (ended n') ++ F (held_of k n') ++ F (waits n') =
    F (ended n) ++ F (held_of k n) ++ F (waits n) ++ F [m].
Proof.
  intros I E. unfold call in E. destruct (srv n) as [s|] eqn:S; [|discriminate].
  destruct (Nat.eqb_spec (gen s) l); [|discriminate].
  destruct (srv_incoming m s) as [[s' o]|] eqn:E1; [|discriminate]. simpl in E. injection E as <-.
  destruct (i_some n I s S) as (A1 & A2 & A3 & A4 & A5 & A6).
  destruct (srv_incoming_spec m s s' o A6 E1) as (B1 & B2 & B3 & B4).
  split; [|split; [reflexivity|]].
  - split; cbn [nos srv made]; try apply I; [|discriminate].
    intros x [= <-]. rewrite B2. tauto.
  - intros k c F. unfold ended, held_of, waits. cbn [nos srv made out]. rewrite S.
    unfold F. rewrite map_app, filter_app, <- app_assoc.
    specialize (B4 k c). cbn zeta in B4. now rewrite B4.
Qed.

Lemma srv_register_spec k0 s s' o : srv_ok s -> srv_register k0 new_tport s = Ok (s', o) ->
  srv_ok s' /\ gen s' = gen s /\ procs s' <> [] /\
  (exists t, find2 k0 (procs s') = Some (Some t) /\ queues t = queues new_tport) /\
  (forall k, k <> k0 -> find2 k (procs s') = find2 k (procs s)) /\
  forall k c, let F := filter (aims k c) in
    let h x := match find2 k (procs x) with Some (Some t) => map snd (held t) | _ => [] end in
    F (map snd o) ++ F (h s') ++ F (waiting s') = F (h s) ++ F (waiting s).
Proof.
  intros [H1 H2 H3 H4] E. unfold srv_register in E.
  assert (Q : find2 k0 (procs s) = None \/ find2 k0 (procs s) = Some None).
  { destruct (find2 k0 (procs s)) as [[|]|]; auto; discriminate. }
  assert (E' : bind (tp_all (filter (for_key k0) (waiting s)) new_tport)
    (fun '(t', o) => Ok (mksrv (gen s) (put2 k0 (Some t') (procs s))
       (filter (fun m => negb (for_key k0 m)) (waiting s)), o)) = Ok (s', o)).
  { destruct Q as [Q|Q]; rewrite Q in E; exact E. }
  clear E. destruct (tp_all (filter (for_key k0) (waiting s)) new_tport) as [[t' o']|] eqn:E1;
    [|discriminate]. simpl in E'. injection E' as <- <-.
  assert (KK : forall m, In m (filter (for_key k0) (waiting s)) -> m_key m = k0).
  { intros m Hm. apply filter_In in Hm as [_ Hm]. unfold for_key in Hm.
    now destruct (keq_spec (m_key m) k0). }
  assert (T0 : tp_ok k0 new_tport) by (intros c m []).
  assert (T : tp_ok k0 t') by (eapply tp_all_ok; eauto).
  split; [|split; [reflexivity|split; [simpl; discriminate|split; [|split]]]].
  - split; cbn [procs waiting].
    + now apply put2_nodup.
    + intros k u. destruct (keq_spec k k0) as [->|N].
      * rewrite find2_put_same. now intros [= <-].
      * rewrite find2_put_other by auto. apply H2.
    + intros m Hm. apply filter_In in Hm as [Hm1 Hm2]. unfold for_key in Hm2.
      destruct (keq_spec (m_key m) k0) as [|N]; [discriminate|].
      rewrite find2_put_other by auto. auto.
    + intros k. destruct (keq_spec k k0) as [->|N].
      * rewrite find2_put_same. discriminate.
      * rewrite find2_put_other by auto. intros Hk. apply H4 in Hk as (x & X1 & X2).
        exists x. split; auto. apply filter_In. split; auto. unfold for_key.
        destruct (keq_spec (m_key x) k0); [congruence|reflexivity].
  - exists t'. cbn [procs]. rewrite find2_put_same. split; auto. eapply tp_all_queues; eauto.
  - intros k N. cbn [procs]. now rewrite find2_put_other.
  - intros k c F h. unfold h. cbn [procs waiting].
    pose proof (tp_all_content k0 k c _ _ _ _ KK T0 E1) as C. cbn zeta in C.
    simpl (held new_tport) in C. simpl map in C at 2. simpl filter in C at 3.
    destruct (keq_spec k k0) as [->|N].
    + rewrite find2_put_same. unfold F. rewrite app_assoc, C.
      rewrite (filter_filter_nil _ _ (fun m => negb (for_key k0 m))), app_nil_r.
      * destruct Q as [->| ->]; simpl; apply filter_filter_id; intros x _ A;
          apply aims_spec in A as [A _]; unfold for_key; rewrite A; apply keq_refl.
      * intros x _ A. apply aims_spec in A as [A _]. unfold for_key. rewrite A. now rewrite keq_refl.
    + rewrite find2_put_other by auto. unfold F.
      assert (Z : filter (aims k c) (filter (for_key k0) (waiting s)) = []).
      { apply filter_filter_nil. intros x _ A. apply aims_spec in A as [A _]. unfold for_key.
        now apply keq_neq; congruence. }
      rewrite Z in C. simpl in C. apply app_eq_nil in C as [C1 C2]. rewrite C1. simpl. f_equal.
      apply filter_filter_id. intros x _ A. apply aims_spec in A as [A _]. unfold for_key.
      rewrite keq_neq; [reflexivity|congruence].
Qed.

(** What one operation does to the messages for one queue. *)
Definition news (a : op) : list msg := match a with Arrive m => [m] | _ => [] end.

Lemma del1_all V n (l : list (nat * V)) : (forall x, In x l -> fst x = n) -> del1 n l = [].
Proof.
  intros H. apply filter_nil. intros x Hx. now rewrite (H x Hx), Nat.eqb_refl.
Qed.
Lemma filter_all A (f : A -> bool) l : (forall x, In x l -> f x = true) -> filter f l = l.
Proof.
  induction l as [|a l IH]; simpl; intros H; auto. rewrite (H a) by auto. f_equal. auto.
Qed.

Lemma on_tport_spec k0 f n n' :
  (forall t t', f t = Ok t' -> held t' = held t /\ (tp_ok k0 t -> tp_ok k0 t')) ->
  inv n -> on_tport k0 f n = Ok n' ->
  inv n' /\ nos n' = nos n /\ forall k c, content k c n' = content k c n.
Proof.
  intros Hf I E. unfold on_tport in E. destruct (srv n) as [s|] eqn:S; [|discriminate].
  destruct (find2 k0 (procs s)) as [[t|]|] eqn:Q; try discriminate.
  destruct (f t) as [t'|] eqn:E1; [|discriminate]. simpl in E. injection E as <-.
  destruct (Hf t t' E1) as (F1 & F3).
  destruct (i_some n I s S) as (A1 & A2 & A3 & A4 & A5 & [H1 H2 H3 H4]).
  split; [|split; [reflexivity|]].
  - split; cbn [nos srv made]; try apply I; [|discriminate].
    intros x [= <-]. cbn [gen procs].
    do 3 (split; [assumption|]). split; [simpl; discriminate|]. split; [assumption|]. split; cbn [procs waiting].
    + now apply put2_nodup.
    + intros k u. destruct (keq_spec k k0) as [->|N].
      * rewrite find2_put_same. intros [= <-]. auto.
      * rewrite find2_put_other by auto. apply H2.
    + intros m Hm. destruct (keq_spec (m_key m) k0) as [E|N].
      * apply H3 in Hm. congruence.
      * rewrite find2_put_other by auto. auto.
    + intros k. destruct (keq_spec k k0) as [->|N].
      * rewrite find2_put_same. discriminate.
      * rewrite find2_put_other by auto. apply H4.
  - intros k c. unfold content, held_of, waits, ended. cbn [nos srv out procs waiting]. rewrite S.
    destruct (keq_spec k k0) as [->|N].
    + now rewrite find2_put_same, Q, F1.
    + now rewrite find2_put_other by auto.
Qed.

Lemma set_nth_length A i (x : A) : forall l, length (set_nth i x l) = length l.
Proof. induction i; destruct l; simpl; auto. Qed.
Lemma set_nth_in A (x y : A) : forall l i, In y (set_nth i x l) -> y = x \/ In y l.
Proof.
  induction l as [|a l IH]; intros [|i]; simpl; auto; intuition. apply IH in H0. tauto.
Qed.
Lemma set_nth_nth A (x : A) : forall l i j, nth_error (set_nth i x l) j =
  if (i =? j) && (j <? length l) then Some x else nth_error l j.
Proof.
  induction l as [|a l IH]; intros [|i] [|j]; simpl; auto; rewrite ?andb_false_r; auto.
  rewrite IH. reflexivity.
Qed.

Lemma alloc_id_fine k0 t t' : Ok (snd (tp_alloc_id t)) = Ok t' ->
  held t' = held t /\ (tp_ok k0 t -> tp_ok k0 t').
Proof.
  intros [= <-]. unfold tp_alloc_id. destruct (free t) as [|i r]; simpl; split; auto.
  intros H c m I. apply H in I as (I1 & I2 & I3). repeat split; auto. intros h. cbn [queues].
  destruct (Nat.lt_ge_cases c (length (queues t))) as [L|L].
  - rewrite nth_error_app1 by auto. apply I3.
  - rewrite nth_error_app2 by auto. destruct (c - length (queues t)) as [|x]; simpl; [discriminate|].
    destruct x; discriminate.
Qed.
Lemma alloc_cq_fine k0 i h t t' : tp_alloc_cq i h t = Ok t' ->
  held t' = held t /\ (tp_ok k0 t -> tp_ok k0 t').
Proof.
  unfold tp_alloc_cq. destruct (Nat.ltb_spec i (length (queues t))); [|discriminate].
  destruct (existsb _ _) eqn:X; [discriminate|]. intros [= <-]. split; auto.
  intros T c m I. cbn [held queues] in *. destruct (T c m I) as (I1 & I2 & I3). repeat split; auto.
  intros u. rewrite set_nth_nth. destruct (Nat.eqb_spec i c); simpl; [|apply I3]. subst c.
  exfalso. assert (existsb (fun p => fst p =? i) (held t) = true); [|congruence].
  apply existsb_exists. exists (i, m). split; auto. simpl. apply Nat.eqb_refl.
Qed.
Lemma dealloc_fine k0 i t t' : Ok (tp_dealloc i t) = Ok t' ->
  held t' = held t /\ (tp_ok k0 t -> tp_ok k0 t').
Proof. intros [= <-]. split; auto. Qed.

Lemma filter1 (f : msg -> bool) m l : filter f (m :: l) = filter f [m] ++ filter f l.
Proof. simpl. now destruct (f m). Qed.

Lemma the_server_ok n s : inv n -> the_server n = Ok s -> srv n = Some s.
Proof.
  intros I. unfold the_server. destruct (find1 _ _); [|discriminate].
  destruct (srv n) as [x|]; [|discriminate]. destruct (gen x =? n0); [|discriminate]. congruence.
Qed.

Lemma app_shift (O H' W' H W R : list msg) : O ++ H' ++ W' = H ++ W ->
  H ++ W ++ R = O ++ H' ++ W' ++ R.
Proof. intros E. now rewrite (app_assoc H), <- E, <- !app_assoc. Qed.

(** One operation keeps the invariant and moves messages without losing, inventing or reordering them,
    except that an arriving message passes those whose callback is outstanding. *)
Lemma step_spec a n n' : inv n -> step a n = Ok n' ->
  inv n' /\ forall k c,
    Permutation (content k c n ++ filter (aims k c) (news a)) (content k c n') /\
    (match a with Arrive _ => delayed (nos n) = [] | _ => True end ->
     content k c n ++ filter (aims k c) (news a) = content k c n').
Proof.
  intros I E.
  assert (EQ : forall X Y : list msg, X = Y -> forall P : Prop,
    Permutation X Y /\ (P -> X = Y)) by (intros X Y -> P; split; auto).
  destruct a as [m| |k0|k0|k0|k0 i h|k0 i]; cbn [step news] in E |- *.
  - (* Arrive *)
    unfold os_request in E. destruct (find1 server_name (libs (nos n))) as [l|] eqn:Q.
    + destruct (call_spec l m (mknode (nos n) (srv n) (made n) (out n)) n') as (I' & O & C); auto.
      { destruct n; exact I. }
      split; [exact I'|]. intros k c. specialize (C k c). cbn zeta in C.
      unfold ended, held_of, waits in C. cbn [nos srv out] in C. cbn [nos] in O.
      unfold content, ended, held_of, waits. rewrite O.
      rewrite (app_assoc (filter _ (map snd (out n'))) _ _), (app_assoc (_ ++ _) (filter _ (match srv n' with _ => _ end)) _).
      rewrite <- (app_assoc (filter _ (map snd (out n'))) _ _), C.
      assert (P : pend (nos n) = []).
      { destruct (srv n) as [s|] eqn:S; [now apply (i_some n I s S)|].
        apply (i_none n I) in S. congruence. }
      rewrite P. simpl (filter _ (map snd [])). rewrite !app_nil_r. split.
      * rewrite <- !app_assoc. do 3 apply Permutation_app_head. apply Permutation_app_comm.
      * intros ->. simpl (filter _ (map snd [])). now rewrite !app_nil_r, <- !app_assoc.
    + injection E as <-. split.
      * split; cbn [nos pend libs refs srv made].
        -- intros x Hx. apply in_app_iff in Hx as [Hx|[<-|[]]]; [now apply (i_name n I)|reflexivity].
        -- intros s S. apply (i_some n I) in S as [S _]. congruence.
        -- auto.
        -- apply I.
      * intros k c. apply EQ. unfold content, ended, held_of, waits. cbn [nos pend srv out delayed].
        rewrite (map_app snd (pend (nos n))), (filter_app _ (map snd (pend (nos n)))).
        now rewrite <- !app_assoc.
  - (* RunNext *)
    unfold os_next in E. destruct (delayed (nos n)) as [|[l m] d] eqn:D.
    + injection E as <-. split; auto. intros k c. simpl. apply EQ. apply app_nil_r.
    + destruct (call_spec l m (mknode (mkos (libs (nos n)) (refs (nos n)) (pend (nos n)) d)
        (srv n) (made n) (out n)) n') as (I' & O & C); auto.
      { split; cbn [nos libs refs pend srv made]; apply I. }
      split; [exact I'|]. intros k c. apply EQ. specialize (C k c). cbn zeta in C.
      unfold ended, held_of, waits in C. cbn [nos srv out] in C. cbn [nos] in O.
      unfold content, ended, held_of, waits. rewrite O, D. cbn [delayed pend map snd].
      rewrite (app_assoc (filter _ (map snd (out n'))) _ _), (app_assoc (_ ++ _) (filter _ (match srv n' with _ => _ end)) _).
      rewrite <- (app_assoc (filter _ (map snd (out n'))) _ _), C.
      rewrite (filter1 _ m (map snd d)). simpl (filter _ []). now rewrite app_nil_r, <- !app_assoc.
  - (* Start *)
    set (r1 := match find1 server_name (libs (nos n)) with
      | None => _ | Some _ => _ end) in E.
    assert (G : exists n1, r1 = Ok n1 /\ (exists s, the_server n1 = Ok s /\ srv n1 = Some s /\ srv_ok s /\
        find1 server_name (libs (nos n1)) = Some (gen s) /\ find1 (gen s) (refs (nos n1)) = Some 1%Z /\
        pend (nos n1) = [] /\ gen s < made n1) /\
        (forall l, made n1 <= l -> find1 l (refs (nos n1)) = None) /\
        forall k c, content k c n1 = content k c n).
    { unfold r1. destruct (srv n) as [s|] eqn:S.
      - destruct (i_some n I s S) as (A1 & A2 & A3 & A4 & A5 & A6). rewrite A1. exists n.
        split; [reflexivity|]. split; [|split; [apply I|reflexivity]].
        exists s. unfold the_server. rewrite A1, S, Nat.eqb_refl. tauto.
      - pose proof (i_none n I S) as A. rewrite A. eexists. split; [reflexivity|].
        assert (D : del1 server_name (pend (nos n)) = []) by (apply del1_all, I).
        split; [|split].
        + exists (mksrv (made n) [] []). unfold the_server, os_register. cbn [nos libs refs pend srv made gen].
          rewrite !find1_put_same, Nat.eqb_refl, (i_fresh n I) by lia. 
          repeat (split; [reflexivity || (split; simpl; intros; try contradiction; try discriminate; constructor) || assumption|]). simpl. lia.
        + intros l L. unfold os_register. cbn [nos made refs] in *. rewrite find1_put_other by lia.
          apply (i_fresh n I). lia.
        + intros k c. unfold content, ended, held_of, waits, os_register. cbn [nos srv out procs waiting pend delayed].
          rewrite S, D. cbn [find2]. rewrite map_app, filter_app, map_map. cbn [snd].
          rewrite (filter_all _ (fun p => fst p =? server_name)) by (intros x Hx; apply Nat.eqb_eq; now apply (i_name n I)).
          simpl (filter _ []). now rewrite !app_nil_l, !app_nil_r. }
    clearbody r1. destruct G as (n1 & -> & (s & T & S & SO & A1 & A2 & A3 & A4) & FR & CT).
    cbn [bind] in E. rewrite T in E. cbn [bind] in E.
    destruct (srv_register k0 new_tport s) as [[s' o]|] eqn:R; [|discriminate]. cbn [bind] in E.
    injection E as <-.
    destruct (srv_register_spec k0 s s' o SO R) as (B1 & B2 & B3 & B4 & B5 & B6).
    split.
    + split; cbn [nos srv made].
      * rewrite A3. intros x [].
      * intros x [= <-]. rewrite B2. tauto.
      * discriminate.
      * exact FR.
    + intros k c. apply EQ. simpl (filter _ []). rewrite app_nil_r, <- CT.
      specialize (B6 k c). cbn zeta in B6.
      unfold content, ended, held_of, waits. cbn [nos srv out]. rewrite S.
      rewrite map_app, filter_app, <- !app_assoc. f_equal.
      now apply app_shift.
  - (* Stop *)
    destruct (the_server n) as [s|] eqn:T; [|discriminate]. cbn [bind] in E.
    pose proof (the_server_ok n s I T) as S.
    destruct (i_some n I s S) as (A1 & A2 & A3 & A4 & A5 & A6). pose proof A6 as [H1 H2 H3 H4].
    destruct (find2 k0 (procs s)) as [[t|]|] eqn:Q; try discriminate.
    unfold srv_unregister in E.
    assert (WN : forall m, In m (waiting s) -> m_key m <> k0).
    { intros m Hm K. apply H3 in Hm. rewrite K in Hm. congruence. }
    assert (CE : forall k c x, ended x = ended n ++ map snd (held t) ->
       held_of k x = match find2 k (del2 k0 (procs s)) with Some (Some t) => map snd (held t) | _ => [] end ->
       waits x = waiting s -> delayed (nos x) = delayed (nos n) -> pend (nos x) = pend (nos n) ->
       content k c n = content k c x).
    { intros k c x X1 X2 X3 X4 X5. unfold content. rewrite X1, X2, X3, X4, X5.
      assert (W : waits n = waiting s) by (unfold waits; now rewrite S). rewrite W.
      rewrite filter_app, <- !app_assoc. f_equal. unfold held_of. rewrite S.
      destruct (keq_spec k k0) as [->|N].
      - rewrite find2_del_same, Q. simpl (filter _ []). now rewrite app_nil_l.
      - rewrite find2_del_other by auto.
        assert (Z : filter (aims k c) (map snd (held t)) = []).
        { apply filter_nil. intros y Hy. apply in_map_iff in Hy as [[c' m'] [<- Hy]]. simpl.
          destruct (aims k c m') eqn:B; auto. apply aims_spec in B as [B1 B2].
          apply (H2 _ _ Q) in Hy as (Y1 & _). congruence. }
        now rewrite Z. }
    destruct (del2 k0 (procs s)) as [|p0 ps] eqn:DD.
    + injection E as <-.
      assert (WE : waiting s = []).
      { enough (Z : forall m, ~ In m (waiting s)) by (destruct (waiting s) as [|m w]; auto;
          exfalso; apply (Z m); now left).
        intros m Hm. pose proof (H3 m Hm) as F. specialize (WN m Hm). rewrite <- (find2_del_other k0) in F by auto. rewrite DD in F. discriminate. }
      split.
      * split; cbn [nos srv made].
        -- unfold os_unregister. rewrite A2. simpl. rewrite A3. intros x [].
        -- discriminate.
        -- intros _. unfold os_unregister. rewrite A2. cbn [libs]. simpl Z.eqb. cbn [libs].
           apply find1_del_same.
        -- intros l L. unfold os_unregister. rewrite A2. simpl Z.eqb. cbn [refs].
           rewrite find1_del_other by lia. now apply I.
      * intros k c. apply EQ. simpl (filter _ []). rewrite app_nil_r. apply CE.
        -- unfold ended. cbn [out]. rewrite map_app, map_map. reflexivity.
        -- reflexivity.
        -- symmetry. exact WE.
        -- cbn [nos]. unfold os_unregister. rewrite A2. reflexivity.
        -- cbn [nos]. unfold os_unregister. rewrite A2. reflexivity.
    + injection E as <-. rewrite <- DD in *. split.
      * split; cbn [nos srv made]; try apply I; [|discriminate].
        intros x [= <-]. cbn [gen procs].
        do 3 (split; [assumption|]). split; [rewrite DD; discriminate|]. split; [assumption|].
        split; cbn [procs waiting].
        -- now apply del2_nodup.
        -- intros k u. destruct (keq_spec k k0) as [->|N]; [rewrite find2_del_same; discriminate|].
           rewrite find2_del_other by auto. apply H2.
        -- intros m Hm. rewrite find2_del_other by auto. auto.
        -- intros k. destruct (keq_spec k k0) as [->|N]; [rewrite find2_del_same; discriminate|].
           rewrite find2_del_other by auto. apply H4.
      * intros k c. apply EQ. simpl (filter _ []). rewrite app_nil_r. apply CE; try reflexivity.
        unfold ended. cbn [out]. rewrite map_app, map_map. reflexivity.
  - destruct (on_tport_spec k0 (fun t => Ok (snd (tp_alloc_id t))) n n') as (I' & O & C); auto.
    { intros. now apply alloc_id_fine. }
    split; auto. intros k c. apply EQ. simpl. now rewrite app_nil_r, C.
  - destruct (on_tport_spec k0 (tp_alloc_cq i h) n n') as (I' & O & C); auto.
    { intros. eapply alloc_cq_fine; eauto. }
    split; auto. intros k c. apply EQ. simpl. now rewrite app_nil_r, C.
  - destruct (on_tport_spec k0 (fun t => Ok (tp_dealloc i t)) n n') as (I' & O & C); auto.
    { intros. eapply dealloc_fine; eauto. }
    split; auto. intros k c. apply EQ. simpl. now rewrite app_nil_r, C.
Qed.

Lemma run_inv l : forall n n', inv n -> run l n = Ok n' -> inv n'.
Proof.
  induction l as [|a l IH]; simpl; intros n n' I E; [now injection E as <-|].
  destruct (step a n) as [n1|] eqn:E1; [|discriminate]. simpl in E.
  eapply IH; [|eassumption]. eapply step_spec; eauto.
Qed.
Lemma arrived_cons a l : arrived (a :: l) = news a ++ arrived l.
Proof. reflexivity. Qed.
Lemma run_perm l : forall n n', inv n -> run l n = Ok n' -> forall k c,
  Permutation (content k c n ++ filter (aims k c) (arrived l)) (content k c n').
Proof.
  induction l as [|a l IH]; simpl run; intros n n' I E k c.
  - injection E as <-. simpl. now rewrite app_nil_r.
  - destruct (step a n) as [n1|] eqn:E1; [|discriminate]. simpl in E.
    destruct (step_spec a n n1 I E1) as [I1 C1].
    rewrite arrived_cons, filter_app, app_assoc. rewrite (proj1 (C1 k c)). eauto.
Qed.
Lemma run_eq l : forall n n', inv n -> quiet_run l n -> run l n = Ok n' -> forall k c,
  content k c n ++ filter (aims k c) (arrived l) = content k c n'.
Proof.
  induction l as [|a l IH]; simpl run; intros n n' I Qu E k c.
  - injection E as <-. simpl. now rewrite app_nil_r.
  - destruct (step a n) as [n1|] eqn:E1; [|discriminate]. simpl in E. destruct Qu as [Q1 Q2].
    destruct (step_spec a n n1 I E1) as [I1 C1].
    rewrite arrived_cons, filter_app, app_assoc, (proj2 (C1 k c)) by auto. eauto.
Qed.
