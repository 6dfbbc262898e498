(** The LogP network: C140 (injection), C141 (delivery and reception), C142 (order between two nodes). *)
From Coq Require Import List NArith ZArith Bool Lia Permutation Sorted.
From Verif Require Import LpModel.
Import ListNotations.
Open Scope N_scope.

(** A message that is longer than negligible_size and shorter than 2 GB. *)
Definition big (c : cfg) (f : flight) : Prop := negl c < len (fmsg f) < 2 ^ 31.

Lemma negligible_small c n : n < 2 ^ 31 -> negligible c n = (n <=? negl c).
Proof.
  intros H. unfold negligible, to_int. rewrite N.mod_small by (assert (2 ^ 31 < 2 ^ 32) by reflexivity; lia).
  apply N.ltb_lt in H. rewrite H. destruct (N.leb_spec n (negl c)).
  - apply Z.leb_le. lia.
  - apply Z.leb_gt. lia.
Qed.

(** What holds for one message. *)
Lemma inject_cases c f m s a f' : inject c f m = (s, a, f') ->
  (negligible c (len m) = true /\ s = at_ m /\ a = at_ m /\ f' = f) \/
  (negligible c (len m) = false /\ s = N.max f (at_ m) /\ a = s + inj_lat c + inj_bd c * len m /\ f' = a).
Proof.
  unfold inject. destruct negligible; intros E.
  - inversion E; subst. left. auto.
  - right. destruct (N.ltb_spec f (at_ m)); injection E; intros; subst; repeat split; lia.
Qed.

Lemma free_before c l : forall fs s f,
  In f (inject_all c fs l) -> src (fmsg f) = s -> negligible c (len (fmsg f)) = false -> fs s <= fstart f.
Proof.
  induction l as [|m t IH]; simpl; intros fs s f I E B; [contradiction|].
  destruct (inject c (fs (src m)) m) as [[st a] f'] eqn:J. destruct (inject_cases _ _ _ _ _ _ J) as [(K&->&->&->)|(K&->&->&->)];
  destruct I as [<-|I]; simpl in *.
  - congruence.
  - specialize (IH _ s f I E B). simpl in IH. destruct (N.eqb_spec s (src m)); subst; auto. rewrite e; auto.
  - subst s. lia.
  - specialize (IH _ s f I E B). simpl in IH. destruct (N.eqb_spec s (src m)); [|auto]. rewrite e. lia.
Qed.

Lemma big_not_negligible c f : big c f -> negligible c (len (fmsg f)) = false.
Proof. intros [H1 H2]. rewrite negligible_small by auto. apply N.leb_gt. auto. Qed.

(** C140: the injections of a node do not overlap: a message starts when the messages before it have been
    injected, at once if there is none, and it takes the latency and its length times the byte delay; a
    message that is not longer than negligible_size does not take part. *)
Definition serialised (c : cfg) (l : list flight) : Prop :=
  ForallOrdPairs (fun x y => src (fmsg x) = src (fmsg y) -> big c x -> big c y -> fack x <= fstart y) l.
Definition exact_start (c : cfg) (l : list flight) : Prop :=
  forall p x q, l = p ++ x :: q -> len (fmsg x) < 2 ^ 31 ->
    at_ (fmsg x) <= fstart x /\
    (len (fmsg x) <= negl c -> fstart x = at_ (fmsg x) /\ fack x = at_ (fmsg x)) /\
    (big c x -> fack x = fstart x + inj_lat c + inj_bd c * len (fmsg x) /\
       (fstart x = at_ (fmsg x) \/
        exists y, In y p /\ src (fmsg y) = src (fmsg x) /\ negl c < len (fmsg y) /\ fstart x = fack y)).

Lemma serialised_from c l : forall fs, serialised c (inject_all c fs l).
Proof.
  induction l as [|m t IH]; simpl; intros fs; [constructor|].
  destruct (inject c (fs (src m)) m) as [[st a] f'] eqn:J. constructor; [|apply IH].
  apply Forall_forall. intros y I E Bx By. simpl in *.
  pose proof (free_before _ _ _ (src m) _ I (eq_sym E) (big_not_negligible _ _ By)) as F. simpl in F.
  rewrite N.eqb_refl in F.
  destruct (inject_cases _ _ _ _ _ _ J) as [(K&->&->&->)|(K&->&->&->)].
  - apply big_not_negligible in Bx. simpl in Bx. congruence.
  - lia.
Qed.

Lemma exact_from c l : Forall (fun m => len m < 2 ^ 31) l -> forall fs p x q, inject_all c fs l = p ++ x :: q ->
    at_ (fmsg x) <= fstart x /\
    (len (fmsg x) <= negl c -> fstart x = at_ (fmsg x) /\ fack x = at_ (fmsg x)) /\
    (big c x -> fack x = fstart x + inj_lat c + inj_bd c * len (fmsg x) /\
       (fstart x = at_ (fmsg x) \/ fstart x = fs (src (fmsg x)) \/
        exists y, In y p /\ src (fmsg y) = src (fmsg x) /\ negl c < len (fmsg y) /\ fstart x = fack y)).
Proof.
  induction l as [|m t IH]; simpl; intros FL fs p x q E.
  - destruct p; discriminate.
  - inversion FL as [|? ? M FT]; subst.
    destruct (inject c (fs (src m)) m) as [[st a] f'] eqn:J.
    destruct p as [|z p]; simpl in E; injection E; intros Et Ex.
    + subst x. simpl.
      destruct (inject_cases _ _ _ _ _ _ J) as [(K&->&->&->)|(K&->&->&->)]; rewrite negligible_small in K by auto.
      * apply N.leb_le in K. split; [lia|]. split; auto. intros [B _]. simpl in B. lia.
      * apply N.leb_gt in K. split; [lia|]. split; [intros; lia|]. intros _. split; auto. lia.
    + destruct (IH FT _ _ _ _ Et) as (A & S & B). split; auto. split; auto. intros Bx.
      destruct (B Bx) as (B1 & B2). split; auto. destruct B2 as [B2|[B2|(y & I & Ey)]]; auto.
      * destruct (N.eqb_spec (src (fmsg x)) (src m)) as [En|]; [|auto].
        destruct (inject_cases _ _ _ _ _ _ J) as [(K&->&->&->)|(K&->&->&->)].
        -- right. left. rewrite En. auto.
        -- right. right. exists z. subst z. simpl. repeat split; auto.
           rewrite negligible_small in K by auto. apply N.leb_gt in K. auto.
      * right. right. exists y. simpl. intuition.
Qed.

(** Missing: messages of 2 GB or more, for which it is false (below). *)
Theorem logp_injection_partial : forall c l, Forall (fun m => len m < 2 ^ 31) l ->
  serialised c (inject_all c (fun _ => 0) l) /\ exact_start c (inject_all c (fun _ => 0) l).
Proof.
  intros c l F. split; [apply serialised_from|]. intros p x q E M.
  destruct (exact_from c l F _ _ _ _ E) as (A & S & B). split; auto. split; auto. intros Bx.
  destruct (B Bx) as (B1 & B2). split; auto. destruct B2 as [B2|[B2|B2]]; auto. left. lia.
Qed.
Print Assumptions logp_injection_partial.

(** A message of 2 GB counts as negligible: it is injected in no time, and the message after it starts at
    once. *)
Theorem logp_injection_refuted : exists c l x y,
  inject_all c (fun _ => 0) l = [x; y] /\ src (fmsg x) = src (fmsg y) /\
  negl c < len (fmsg x) /\ 0 < inj_bd c /\ 0 < inj_lat c /\ fack x = at_ (fmsg x) /\ fstart y = at_ (fmsg x).
Proof.
  exists (mkcfg 5 2 256 2 3 4), [mkmsg 1 0 2 10 (2 ^ 31); mkmsg 2 0 2 10 300].
  eexists _, _. split; [vm_compute; reflexivity|]. vm_compute. intuition.
Qed.
Print Assumptions logp_injection_refuted.

Example logp_injection_example :
  map (fun f => (mid (fmsg f), fstart f, fack f, farr f))
    (inject_all (mkcfg 5 2 256 3 7 11) (fun _ => 0)
       [mkmsg 1 0 2 10 1000; mkmsg 2 0 2 20 100; mkmsg 3 1 1 30 500; mkmsg 4 0 2 40 2000]) =
  [(1, 10, 2015, 3035); (2, 20, 20, 345); (3, 30, 1035, 1548); (4, 2015, 6020, 8040)].
Proof. vm_compute. reflexivity. Qed.

(** C141: each message is delivered once, not before it has travelled through the network; and receptions
    at a node do not overlap. *)
Lemma place_perm x l : Permutation (place x l) (x :: l).
Proof.
  induction l as [|y t IH]; simpl; auto. destruct (farr x <=? farr y); auto.
  rewrite IH. apply perm_swap.
Qed.
Lemma order_perm l : Permutation (order l) l.
Proof. induction l; simpl; auto. rewrite place_perm. auto. Qed.
Lemma receive_all_fst c l : forall free, map fst (receive_all c free l) = l.
Proof.
  induction l as [|x t IH]; simpl; intros free; auto. destruct receive. simpl. f_equal. auto.
Qed.
Lemma inject_all_msgs c l : forall fs, map fmsg (inject_all c fs l) = l.
Proof.
  induction l as [|x t IH]; simpl; intros fs; auto. destruct inject as [[? ?] ?]. simpl. f_equal. auto.
Qed.
Lemma inject_all_arr c l : forall fs f, In f (inject_all c fs l) ->
  farr f = fstart f + net_bd c * len (fmsg f) + hops (fmsg f) * hop_lat c + out_in c /\ at_ (fmsg f) <= fstart f.
Proof.
  induction l as [|m t IH]; simpl; intros fs f I; [contradiction|].
  destruct (inject c (fs (src m)) m) as [[st a] f'] eqn:J. destruct I as [<-|I]; [|eauto]. simpl.
  unfold arrival. split; [lia|].
  destruct (inject_cases _ _ _ _ _ _ J) as [(K&->&->&->)|(K&->&->&->)]; lia.
Qed.
Lemma receive_late c free now n : now <= fst (receive c free now n).
Proof.
  unfold receive, sub. destruct (n <? negl c); simpl; [lia|].
  destruct (N.ltb_spec (inj_bd c * n) now); simpl; [|lia].
  destruct (N.ltb_spec free (now - inj_bd c * n)); simpl; lia.
Qed.
Lemma receive_all_late c l : forall free x e, In (x, e) (receive_all c free l) -> farr x <= e.
Proof.
  induction l as [|y t IH]; simpl; intros free x e I; [contradiction|].
  pose proof (receive_late c free (farr y) (len (fmsg y))) as L. destruct receive as [e' f'].
  destruct I as [I|I]; [inversion I; subst; auto|eauto].
Qed.

Theorem logp_delivered_once : forall c l,
  Permutation (map (fun p => fmsg (fst p)) (deliver c l)) l /\
  forall x e, In (x, e) (deliver c l) ->
    at_ (fmsg x) + net_bd c * len (fmsg x) + hops (fmsg x) * hop_lat c + out_in c <= e /\
    farr x = fstart x + net_bd c * len (fmsg x) + hops (fmsg x) * hop_lat c + out_in c.
Proof.
  intros c l. unfold deliver. split.
  - rewrite <- (map_map fst fmsg), receive_all_fst, order_perm, inject_all_msgs. auto.
  - intros x e I. pose proof (receive_all_late _ _ _ _ _ I) as L.
    assert (J : In x (inject_all c (fun _ => 0) l)).
    { apply (Permutation_in _ (order_perm _)).
      rewrite <- (receive_all_fst c _ 0). change x with (fst (x, e)). apply in_map. auto. }
    apply inject_all_arr in J. lia.
Qed.
Print Assumptions logp_delivered_once.

(** The time of a reception; the reception of y comes after that of x. *)
Definition slot (c : cfg) (p : flight * N) : N := inj_bd c * len (fmsg (fst p)).
Definition disjoint (c : cfg) (l : list (flight * N)) : Prop :=
  ForallOrdPairs (fun x y => negl c <= len (fmsg (fst x)) -> negl c <= len (fmsg (fst y)) ->
                             snd x <= snd y - slot c y /\ slot c y <= snd y) l.
(** No message comes earlier than its reception takes. *)
Definition late (c : cfg) (f : flight) : Prop :=
  negl c <= len (fmsg f) -> inj_bd c * len (fmsg f) < farr f.

Lemma receive_cases c free now n e f : receive c free now n = (e, f) -> (negl c <= n -> inj_bd c * n < now) ->
  (n < negl c /\ e = now /\ f = free) \/
  (negl c <= n /\ e = N.max now (free + inj_bd c * n) /\ f = e).
Proof.
  unfold receive, sub. destruct (N.ltb_spec n (negl c)); intros E L.
  - inversion E; subst. auto.
  - specialize (L H). right. destruct (N.ltb_spec (inj_bd c * n) now); [|lia].
    destruct (N.ltb_spec free (now - inj_bd c * n)); inversion E; subst; lia.
Qed.

Lemma receive_after c l : forall free, Forall (late c) l ->
  forall p, In p (receive_all c free l) -> negl c <= len (fmsg (fst p)) -> free + slot c p <= snd p.
Proof.
  induction l as [|y t IH]; simpl; intros free F p I B; [contradiction|].
  inversion F as [|? ? Fy Ft]; subst.
  destruct (receive c free (farr y) (len (fmsg y))) as [e f] eqn:R.
  destruct (receive_cases _ _ _ _ _ _ R Fy) as [(K&->&->)|(K&->&->)]; destruct I as [<-|I];
    unfold slot in *; simpl in *; try lia.
  - apply IH; auto.
  - specialize (IH _ Ft p I B). simpl in *. lia.
Qed.

Lemma disjoint_from c l : forall free, Forall (late c) l -> disjoint c (receive_all c free l).
Proof.
  induction l as [|y t IH]; simpl; intros free F; [constructor|].
  inversion F as [|? ? Fy Ft]; subst.
  destruct (receive c free (farr y) (len (fmsg y))) as [e f] eqn:R. constructor; [|apply IH; auto].
  apply Forall_forall. intros p I Bx Bp. simpl in *.
  pose proof (receive_after _ _ _ Ft _ I Bp) as A. unfold slot in *.
  destruct (receive_cases _ _ _ _ _ _ R Fy) as [(K&->&->)|(K&->&->)]; lia.
Qed.

Lemma conserve_from c l : forall free, Forall (late c) l -> forall p x q,
  receive_all c free l = p ++ x :: q ->
  snd x = farr (fst x) \/ (negl c <= len (fmsg (fst x)) /\
    (snd x = free + slot c x \/ exists y, In y p /\ negl c <= len (fmsg (fst y)) /\ snd x = snd y + slot c x)).
Proof.
  induction l as [|y t IH]; simpl; intros free F p x q E.
  - destruct p; discriminate.
  - inversion F as [|? ? Fy Ft]; subst.
    destruct (receive c free (farr y) (len (fmsg y))) as [e f] eqn:R.
    destruct p as [|z p]; simpl in E; injection E; intros Et Ex.
    + subst x. unfold slot. simpl. destruct (receive_cases _ _ _ _ _ _ R Fy) as [(K&->&->)|(K&->&->)]; lia.
    + destruct (IH _ Ft _ _ _ Et) as [H|(B & [H|(w & I & Hw)])]; auto.
      * destruct (receive_cases _ _ _ _ _ _ R Fy) as [(K&->&->)|(K&->&->)].
        -- right. auto.
        -- right. split; auto. right. exists z. subst z. simpl. auto.
      * right. split; auto. right. exists w. simpl. intuition.
Qed.

Lemma order_late c l : Forall (late c) l -> Forall (late c) (order l).
Proof. intros F. apply (Permutation_Forall (Permutation_sym (order_perm l))). auto. Qed.

(** Missing: a message that comes earlier than its reception takes, for which it is false (below). *)
Theorem logp_reception_partial : forall c l,
  Forall (late c) (inject_all c (fun _ => 0) l) ->
  disjoint c (deliver c l) /\
  forall p x q, deliver c l = p ++ x :: q ->
    snd x = farr (fst x) \/
    exists y, In y p /\ negl c <= len (fmsg (fst y)) /\ snd x = snd y + slot c x.
Proof.
  intros c l F. apply order_late in F. unfold deliver. split; [apply disjoint_from; auto|].
  intros p x q E. destruct (conserve_from _ _ _ F _ _ _ E) as [H|(B & [H|H])]; auto.
  left. rewrite Forall_forall in F.
  assert (I : In (fst x) (order (inject_all c (fun _ => 0) l))).
  { rewrite <- (receive_all_fst c _ 0), E, map_app. apply in_or_app. right. left. auto. }
  specialize (F _ I B). 
  assert (J : In (fst x, snd x) (receive_all c 0 (order (inject_all c (fun _ => 0) l)))).
  { rewrite E. apply in_or_app. right. left. destruct x; auto. }
  apply receive_all_late in J. unfold slot in H. lia.
Qed.
Print Assumptions logp_reception_partial.

(** With a network faster than the NICs two messages come from two nodes at once; each takes 10000 to be
    received, both are delivered 1014 after they were sent. *)
Theorem logp_reception_refuted : exists c l x y,
  deliver c l = [x; y] /\ negl c < len (fmsg (fst x)) < 2 ^ 31 /\ negl c < len (fmsg (fst y)) < 2 ^ 31 /\
  snd x = snd y /\ 0 < slot c y.
Proof.
  exists (mkcfg 5 10 256 1 3 11), [mkmsg 1 0 1 0 1000; mkmsg 2 1 1 0 1000].
  eexists _, _. split; [vm_compute; reflexivity|]. vm_compute. intuition.
Qed.
Print Assumptions logp_reception_refuted.

Example logp_reception_example :
  map (fun p => (mid (fmsg (fst p)), farr (fst p), snd p))
    (deliver (mkcfg 5 2 256 3 7 11)
       [mkmsg 1 0 2 10 1000; mkmsg 2 1 2 20 100; mkmsg 3 2 1 30 900; mkmsg 4 3 2 40 950]) =
  [(2, 345, 345); (3, 2748, 2748); (4, 2915, 4648); (1, 3035, 6648)] /\
  Forall (late (mkcfg 5 2 256 3 7 11)) (inject_all (mkcfg 5 2 256 3 7 11) (fun _ => 0)
       [mkmsg 1 0 2 10 1000; mkmsg 2 1 2 20 100; mkmsg 3 2 1 30 900; mkmsg 4 3 2 40 950]).
Proof. split; [vm_compute; reflexivity|]. repeat constructor; unfold late; vm_compute; intuition. Qed.

(** C142: messages from one node to another are delivered in the order in which they are sent. *)
Lemma place_sorted x l : Sorted (fun a b => farr a <= farr b) l -> Sorted (fun a b => farr a <= farr b) (place x l).
Proof.
  induction l as [|y t IH]; simpl; intros S; [repeat constructor|].
  destruct (N.leb_spec (farr x) (farr y)); [constructor; auto|].
  inversion S as [|? ? St Hy]; subst. constructor; auto.
  destruct t as [|z u]; simpl; [constructor; lia|]. inversion Hy; subst.
  destruct (farr x <=? farr z); constructor; lia.
Qed.
Lemma order_sorted l : Sorted (fun a b => farr a <= farr b) (order l).
Proof. induction l; simpl; [constructor|apply place_sorted; auto]. Qed.
Lemma place_first x l : Forall (fun y => farr x <= farr y) l -> place x l = x :: l.
Proof.
  destruct l as [|y t]; simpl; auto. intros F. inversion F; subst.
  destruct (N.leb_spec (farr x) (farr y)); auto. lia.
Qed.
Lemma place_filter P x l : Sorted (fun a b => farr a <= farr b) l ->
  filter P (place x l) = if P x then place x (filter P l) else filter P l.
Proof.
  intros S. apply Sorted_StronglySorted in S; [|intros a b d; lia].
  induction l as [|y t IH]; simpl; [destruct (P x); auto|].
  inversion S as [|? ? St Hy]; subst.
  destruct (N.leb_spec (farr x) (farr y)).
  - simpl. destruct (P x) eqn:Px; auto. rewrite place_first; auto.
    change (if P y then y :: filter P t else filter P t) with (filter P (y :: t)).
    apply Forall_forall. intros z I. apply filter_In in I. destruct I as [[<-|I] _]; auto.
    rewrite Forall_forall in Hy. specialize (Hy _ I). lia.
  - simpl. rewrite (IH St). destruct (P x), (P y); simpl; auto.
    destruct (N.leb_spec (farr x) (farr y)); auto. lia.
Qed.
Lemma order_filter P l : filter P (order l) = order (filter P l).
Proof.
  induction l as [|x t IH]; simpl; auto. rewrite place_filter by apply order_sorted.
  rewrite IH. destruct (P x); auto.
Qed.
Lemma order_same l : ForallOrdPairs (fun a b => farr a <= farr b) l -> order l = l.
Proof.
  induction 1 as [|x t F _ IH]; simpl; auto. rewrite IH. apply place_first. auto.
Qed.
Lemma pairs_filter {A} (R R' : A -> A -> Prop) P l : ForallOrdPairs R l ->
  (forall x y, In x l -> In y l -> P x = true -> P y = true -> R x y -> R' x y) -> ForallOrdPairs R' (filter P l).
Proof.
  induction 1 as [|x t F _ IH]; simpl; intros H; [constructor|].
  destruct (P x) eqn:Px; [|apply IH; intros; apply H; auto; right; auto].
  constructor; [|apply IH; intros; apply H; auto].
  apply Forall_forall. intros y I. apply filter_In in I. destruct I as [I Py].
  rewrite Forall_forall in F. apply H; auto.
Qed.
Lemma filter_receive c P l : forall free,
  map fst (filter (fun p => P (fst p)) (receive_all c free l)) = filter P l.
Proof.
  induction l as [|x t IH]; simpl; intros free; auto. destruct receive. simpl.
  destruct (P x); simpl; rewrite IH; auto.
Qed.
Lemma filter_inject c P l : forall fs,
  map fmsg (filter (fun f => P (fmsg f)) (inject_all c fs l)) = filter P l.
Proof.
  induction l as [|x t IH]; simpl; intros fs; auto. destruct inject as [[? ?] ?]. simpl.
  destruct (P x); simpl; rewrite IH; auto.
Qed.

(** The messages of one sender over one distance that are longer than negligible_size. *)
Definition pair_of (c : cfg) (s h : N) (m : msg) : bool :=
  (src m =? s) && (hops m =? h) && (negl c <? len m) && (len m <? 2 ^ 31).
Lemma pair_of_true c s h m : pair_of c s h m = true ->
  src m = s /\ hops m = h /\ negl c < len m < 2 ^ 31.
Proof.
  unfold pair_of. rewrite !andb_true_iff, !N.eqb_eq, !N.ltb_lt. tauto.
Qed.

(** Missing: a network slower than the NICs, messages not longer than negligible_size and messages that come
    earlier than their reception takes; for the first two it is false (below). *)
Theorem logp_order_partial : forall c l s h,
  net_bd c <= inj_bd c ->
  Forall (late c) (inject_all c (fun _ => 0) l) ->
  map (fun p => fmsg (fst p)) (filter (fun p => pair_of c s h (fmsg (fst p))) (deliver c l)) =
    filter (pair_of c s h) l /\
  ForallOrdPairs (fun x y => snd x <= snd y) (filter (fun p => pair_of c s h (fmsg (fst p))) (deliver c l)).
Proof.
  intros c l s h B F. split.
  - unfold deliver. rewrite <- (map_map fst fmsg).
    rewrite (filter_receive c (fun f => pair_of c s h (fmsg f))), order_filter, order_same.
    + apply filter_inject.
    + apply (pairs_filter _ _ _ _ (serialised_from c l (fun _ => 0))).
      intros x y Ix Iy Px Py H. apply pair_of_true in Px, Py.
      destruct (inject_all_arr _ _ _ _ Ix) as (Ax & _), (inject_all_arr _ _ _ _ Iy) as (Ay & _).
      assert (Bx : big c x) by (unfold big; tauto). assert (By : big c y) by (unfold big; tauto).
      specialize (H ltac:(destruct Px, Py; congruence) Bx By).
      assert (K : fack x = fstart x + inj_lat c + inj_bd c * len (fmsg x)).
      { clear - Ix Bx. revert Ix. generalize (fun _ : N => 0). induction l as [|m t IH]; simpl; [tauto|].
        intros fs. destruct (inject c (fs (src m)) m) as [[st a] f'] eqn:J. intros [<-|I]; eauto. simpl in *.
        apply big_not_negligible in Bx. simpl in Bx.
        destruct (inject_cases _ _ _ _ _ _ J) as [(Z&_)|(Z&->&->&->)]; [congruence|auto]. }
      destruct Px as (_ & Hx & _), Py as (_ & Hy & _). rewrite Ax, Ay, Hx, Hy.
      assert (net_bd c * len (fmsg x) <= inj_bd c * len (fmsg x)) by (apply N.mul_le_mono_r; auto). lia.
  - apply (pairs_filter _ _ _ _ (disjoint_from c _ 0 (order_late _ _ F))).
    intros x y _ _ Px Py H. apply pair_of_true in Px, Py. destruct H; lia.
Qed.
Print Assumptions logp_order_partial.

(** In a slower network a short message overtakes a long one; ... *)
Theorem logp_order_refuted : exists c l x y,
  deliver c l = [x; y] /\ l = [fmsg (fst y); fmsg (fst x)] /\
  src (fmsg (fst x)) = src (fmsg (fst y)) /\ hops (fmsg (fst x)) = hops (fmsg (fst y)) /\
  big c (fst x) /\ big c (fst y) /\ Forall (late c) (inject_all c (fun _ => 0) l) /\
  at_ (fmsg (fst y)) < at_ (fmsg (fst x)) /\ snd x < snd y.
Proof.
  exists (mkcfg 5 1 256 10 3 4), [mkmsg 1 0 2 10 5000; mkmsg 2 0 2 20 300].
  eexists _, _. split; [vm_compute; reflexivity|]. split; [reflexivity|].
  split; [reflexivity|]. split; [reflexivity|].
  split; [vm_compute; intuition|]. split; [vm_compute; intuition|].
  split; [repeat constructor; unfold late; vm_compute; intuition|]. vm_compute; intuition.
Qed.
Print Assumptions logp_order_refuted.
(** ... and in any network a message not longer than negligible_size does. *)
Theorem logp_order_small_refuted : exists c l x y,
  deliver c l = [x; y] /\ l = [fmsg (fst y); fmsg (fst x)] /\
  src (fmsg (fst x)) = src (fmsg (fst y)) /\ hops (fmsg (fst x)) = hops (fmsg (fst y)) /\
  net_bd c = inj_bd c /\ Forall (late c) (inject_all c (fun _ => 0) l) /\
  at_ (fmsg (fst y)) < at_ (fmsg (fst x)) /\ snd x < snd y.
Proof.
  exists (mkcfg 5 10 256 10 3 4), [mkmsg 1 0 2 10 5000; mkmsg 2 0 2 20 200].
  eexists _, _. split; [vm_compute; reflexivity|]. split; [reflexivity|].
  split; [reflexivity|]. split; [reflexivity|]. split; [reflexivity|].
  split; [repeat constructor; unfold late; vm_compute; intuition|]. vm_compute; intuition.
Qed.
Print Assumptions logp_order_small_refuted.

Example logp_order_example :
  map (fun p => (mid (fmsg (fst p)), snd p))
    (deliver (mkcfg 5 2 256 2 7 11) [mkmsg 1 0 2 10 5000; mkmsg 2 0 2 20 300; mkmsg 3 1 2 30 4000; mkmsg 4 0 2 40 400]) =
  [(3, 8055); (1, 18055); (2, 18655); (4, 19455)].
Proof. vm_compute. reflexivity. Qed.
