(** The SCULPIN network model: properties C133 to C136. *)
From Coq Require Import List Arith Bool NArith Lia Permutation Sorted.
From Verif Require Import SlModel SlProof.
Import ListNotations.

(** *** C133: the packets of a port *)

(** A pull never finds the queue empty. *)
Theorem sculpin_port_never_aborts : forall d ops, run true d ops 0 port0 <> Abort.
Proof.
  intros d ops E. pose proof (run_inv d ops [] 0 port0 (inv0 d 0)) as H. rewrite E in H. exact H.
Qed.
(** Packets of one priority leave in the order in which they came, none is lost or sent twice. *)
Theorem sculpin_port_fifo : forall d ops now p, run true d ops 0 port0 = Ok now p -> forall x,
  filter (fun y => prio (snd y) =? x) (tried ops) =
  filter (fun y => prio (snd y) =? x) (map (fun y => (arr (fst y), body (fst y))) (sent p)) ++
  filter (fun y => prio (snd y) =? x) (map (fun k => (arr k, body k)) (queue p)).
Proof.
  intros d ops now p E x. pose proof (run_inv d ops [] 0 port0 (inv0 d 0)) as H. rewrite E in H.
  destruct H as [H _]. apply (v_fifo _ _ _ _ H x).
Qed.
(** A packet of lower priority never goes before one of higher priority that was there. *)
Theorem sculpin_port_priority : forall d ops now p i j a s b u, run true d ops 0 port0 = Ok now p ->
  i < j -> nth_error (sent p) i = Some (a, s) -> nth_error (sent p) j = Some (b, u) ->
  prio (body b) < prio (body a) -> s <= arr b.
Proof.
  intros d ops now p i j a s b u E. pose proof (run_inv d ops [] 0 port0 (inv0 d 0)) as H. rewrite E in H.
  destruct H as [H _]. apply (v_prio _ _ _ _ H).
Qed.
(** What waits is sent by the pulls that are scheduled, without anything else happening. *)
Lemma drain d : forall m ops now p, inv d ops now p -> length (queue p) = m ->
  exists now' p', run true d (repeat Pull m) now p = Ok now' p' /\ queue p' = [].
Proof.
  induction m as [|m IH]; intros ops now p V L; cbn [repeat run].
  - exists now, p. split; auto. now destruct (queue p).
  - pose proof (step_inv d ops now p Pull V) as S.
    destruct (v_pull _ _ _ _ V) as [[Q _]|(Q & P & T)]; [rewrite Q in L; discriminate|].
    cbn [step] in *. rewrite P in *. unfold pull_next in *. cbn [queue] in *.
    destruct (queue p) as [|k q] eqn:QQ; [congruence|]. destruct S as [S _].
    apply (IH _ _ _ S). unfold send. cbn [queue]. simpl in L. destruct q; simpl in *; lia.
Qed.
Theorem sculpin_port_drains : forall d ops now p, run true d ops 0 port0 = Ok now p ->
  exists now' p', run true d (ops ++ repeat Pull (length (queue p))) 0 port0 = Ok now' p' /\ queue p' = [].
Proof.
  intros d ops now p E. pose proof (run_inv d ops [] 0 port0 (inv0 d 0)) as H. rewrite E in H.
  destruct H as [H _]. destruct (drain d (length (queue p)) _ _ _ H eq_refl) as (n' & p' & R & Q).
  exists n', p'. split; auto.
  assert (A : forall l1 l2 n q n1 q1, run true d l1 n q = Ok n1 q1 ->
    run true d (l1 ++ l2) n q = run true d l2 n1 q1).
  { induction l1 as [|a l1 IH]; simpl; intros l2 n q n1 q1 X; [congruence|].
    destruct (step true d a n q); try discriminate. auto. }
  now rewrite (A _ _ _ _ _ _ E).
Qed.
(** Without congestion every packet starts at once. *)
Theorem sculpin_port_uncongested : forall d ops now p, run false d ops 0 port0 = Ok now p ->
  map (fun y => (snd y, body (fst y))) (sent p) = tried ops /\ queue p = [].
Proof.
  intros d ops.
  assert (G : forall l n q now p, queue q = [] -> pulls q = [] -> run false d l n q = Ok now p ->
    map (fun y => (snd y, body (fst y))) (sent p) = map (fun y => (snd y, body (fst y))) (sent q) ++ tried l /\
    queue p = []).
  { induction l as [|a l IH]; intros n q now p Q P E; cbn [run] in E.
    - injection E as <- <-. simpl. rewrite app_nil_r. auto.
    - destruct a as [t r|]; cbn [step] in E.
      + destruct ((n <=? t) && forallb (fun x => t <=? x) (pulls q)); [|discriminate].
        apply IH in E as [E1 E2]; auto. split; auto. rewrite E1. unfold try_send. cbn [negb sent].
        rewrite map_app, <- app_assoc. reflexivity.
      + rewrite P in E. discriminate. }
  intros now p E. apply (G ops 0 port0 now p) in E; auto.
Qed.

(** *** C134: the link of a port *)

(** Each packet starts as soon as it has come and the packet before has left, never earlier. *)
Lemma served_nth d : forall l f i k s, served d f l -> nth_error l i = Some (k, s) ->
  s = Nat.max (arr k) (match i with 0 => f | S j => match nth_error l j with
        Some (k', s') => s' + size (body k') * d | None => 0 end end).
Proof.
  induction l as [|[x u] l IH]; intros f i k s V E; [destruct i; discriminate|].
  simpl in V. destruct V as [V1 V2]. destruct i as [|i].
  - simpl in E. injection E as -> ->. exact V1.
  - simpl in E. apply (IH _ _ _ _ V2) in E. destruct i as [|i]; simpl; auto.
Qed.
Theorem sculpin_link_times : forall d ops now p i k s, run true d ops 0 port0 = Ok now p ->
  nth_error (sent p) i = Some (k, s) ->
  match i with
  | 0 => s = arr k
  | S j => exists k' s', nth_error (sent p) j = Some (k', s') /\ s = Nat.max (arr k) (s' + size (body k') * d)
  end.
Proof.
  intros d ops now p i k s E N. pose proof (run_inv d ops [] 0 port0 (inv0 d 0)) as H. rewrite E in H.
  destruct H as [H _]. pose proof (served_nth d _ _ _ _ _ (v_served _ _ _ _ H) N) as X.
  destruct i as [|j]; [lia|]. destruct (nth_error (sent p) j) as [[k' s']|] eqn:J; [eauto|].
  apply nth_error_None in J. assert (nth_error (sent p) (S j) <> None) by congruence.
  apply nth_error_Some in H0. lia.
Qed.
(** No two packets are on the link at the same time. *)
Theorem sculpin_link_disjoint : forall d ops now p i j k s k' s', run true d ops 0 port0 = Ok now p ->
  i < j -> nth_error (sent p) i = Some (k, s) -> nth_error (sent p) j = Some (k', s') ->
  s + size (body k) * d <= s'.
Proof.
  intros d ops now p i j k s k' s' E L Ni Nj. revert k' s' Nj. induction L as [|j L IH]; intros k' s' Nj.
  - destruct (sculpin_link_times _ _ _ _ _ _ _ E Nj) as (k2 & s2 & N2 & X). assert ((k2, s2) = (k, s)) by congruence.
    injection H as -> ->. lia.
  - destruct (sculpin_link_times _ _ _ _ _ _ _ E Nj) as (k2 & s2 & N2 & X). specialize (IH _ _ N2). lia.
Qed.

(** *** C135: packets on their way *)

Lemma run_times c d : forall l now p now' p', run c d l now p = Ok now' p' ->
  (forall ops, c = true -> inv d ops now p -> StronglySorted le (map fst (tried l)) /\
     Forall (fun x => now <= fst x) (tried l)).
Proof.
  induction l as [|a l IH]; intros now p now' p' E ops C V; simpl; [split; constructor|].
  subst c. cbn [run] in E. pose proof (step_inv d ops now p a V) as S.
  destruct (step true d a now p) as [n1 p1| |] eqn:E1; try discriminate. destruct S as [S L].
  destruct (IH _ _ _ _ E _ eq_refl S) as [I1 I2].
  destruct a as [t r|]; simpl.
  - cbn [step] in E1. destruct ((now <=? t) && _) eqn:G; [|discriminate]. injection E1 as <- _.
    split; [constructor; auto|constructor; auto].
    + apply Forall_forall. intros x Hx. apply in_map_iff in Hx as (y & <- & Hy).
      rewrite Forall_forall in I2. now apply I2.
    + eapply Forall_impl; [|exact I2]. intros y. simpl. lia.
  - split; auto. eapply Forall_impl; [|exact I2]. intros y. simpl. lia.
Qed.
Lemma sorted_filter (f : nat * raw -> bool) l : StronglySorted le (map fst l) -> StronglySorted le (map fst (filter f l)).
Proof.
  induction l as [|a l IH]; simpl; intros H; auto. inversion H; subst. destruct (f a); simpl; auto.
  constructor; auto. apply Forall_forall. intros x Hx. apply in_map_iff in Hx as (y & <- & Hy).
  apply filter_In in Hy as [Hy _]. rewrite Forall_forall in H3. apply H3. now apply in_map.
Qed.
Lemma sorted_app_l (l1 l2 : list nat) : StronglySorted le (l1 ++ l2) -> StronglySorted le l1.
Proof.
  induction l1 as [|a l1 IH]; simpl; intros H; [constructor|]. inversion H; subst. constructor; auto.
  apply Forall_app in H3. tauto.
Qed.
Lemma sorted_pair (f : nat * raw -> bool) : forall l, StronglySorted le (map fst (filter f l)) ->
  forall i j a b, i < j -> nth_error l i = Some a -> nth_error l j = Some b -> f a = true -> f b = true ->
  fst a <= fst b.
Proof.
  induction l as [|x l IH]; intros H i j a b L Ei Ej Fa Fb; [destruct i; discriminate|].
  destruct j as [|j]; [lia|]. simpl in Ej. destruct i as [|i].
  - simpl in Ei. injection Ei as ->. simpl in H. rewrite Fa in H. simpl in H. inversion H; subst.
    rewrite Forall_forall in H3. apply H3. apply in_map. apply filter_In. split; auto. eapply nth_error_In; eauto.
  - simpl in Ei. apply (IH) with (i := i) (j := j); auto; [|lia]. simpl in H. destruct (f x); auto.
    simpl in H. now inversion H.
Qed.
Theorem sculpin_port_order : forall d ops now p i j k s k' s', run true d ops 0 port0 = Ok now p ->
  nth_error (sent p) i = Some (k, s) -> nth_error (sent p) j = Some (k', s') ->
  prio (body k) = prio (body k') -> arr k < arr k' -> s + size (body k) * d <= s'.
Proof.
  intros d ops now p i j k s k' s' E Ni Nj P A.
  destruct (Nat.lt_ge_cases i j) as [L|L]; [eapply sculpin_link_disjoint; eauto|]. exfalso.
  destruct (Nat.eq_dec i j) as [->|N]; [rewrite Ni in Nj; injection Nj as -> ->; lia|].
  pose proof (run_inv d ops [] 0 port0 (inv0 d 0)) as H. rewrite E in H. destruct H as [H _].
  destruct (run_times _ _ _ _ _ _ _ E [] eq_refl (inv0 d 0)) as [S _].
  pose proof (v_fifo _ _ _ _ H (prio (body k))) as F. simpl app in F.
  apply (sorted_filter (of_prio (prio (body k)))) in S. rewrite F, map_app in S. apply sorted_app_l in S.
  assert (M : forall n x u, nth_error (sent p) n = Some (x, u) ->
    nth_error (map (fun y => mark (fst y)) (sent p)) n = Some (mark x)).
  { intros n x u X. rewrite nth_error_map, X. reflexivity. }
  pose proof (sorted_pair _ _ S j i (mark k') (mark k) ltac:(lia) (M _ _ _ Nj) (M _ _ _ Ni)) as X.
  unfold of_prio, mark in X. cbn [fst snd] in X. rewrite P, Nat.eqb_refl in X. specialize (X eq_refl eq_refl). lia.
Qed.

(** A switch on the way: byte delay and latency of the link behind the port, and what the port sent. *)
Record hop := mkhop { h_delay : nat; h_lat : nat; h_sent : list (pkt * nat) }.
Definition real (h : hop) : Prop :=
  exists ops now p, run true (h_delay h) ops 0 port0 = Ok now p /\ h_sent h = sent p.
(** The packet [r] whose head comes at [t] after a link on which it took [a] passes the switches; then its
    head comes at [t'] after a link on which it took [a']. *)
Inductive path : list hop -> raw -> nat -> nat -> nat -> nat -> Prop :=
| path_end r t a : path [] r t a t a
| path_hop h hs r t a k s t' a' : real h -> In (k, s) (h_sent h) -> body k = r ->
    arr k = try_time (h_delay h) r t a ->
    path hs r (s + h_lat h) (size r * h_delay h) t' a' -> path (h :: hs) r t a t' a'.

(** The end of a packet is nowhere before it can be: it leaves each switch after it has come. *)
Theorem sculpin_tail_causal : forall hs r t a t' a', path hs r t a t' a' ->
  t + fold_right Nat.add 0 (map h_lat hs) <= t' /\ t + a + fold_right Nat.add 0 (map h_lat hs) <= t' + a'.
Proof.
  intros hs r t a t' a' P. induction P as [|h hs r t a k s t' a' R I B A P IH]; simpl; [lia|].
  destruct R as (ops & now & p & E & HS). rewrite HS in I. apply In_nth_error in I as [i I].
  assert (X : arr k <= s).
  { pose proof (sculpin_link_times _ _ _ _ _ _ _ E I) as X. destruct i; [lia|]. destruct X as (? & ? & _ & ->). lia. }
  rewrite A in X. unfold try_time in X. destruct (Nat.ltb_spec (h_delay h * size r) a); nia.
Qed.
(** Two packets of one priority that come one after the other over the same link keep their order and do
    not overlap all the way along. *)
Theorem sculpin_path_order : forall hs r1 r2 t1 a1 t2 a2 t1' a1' t2' a2',
  Forall (fun h => 0 < h_delay h) hs -> 0 < size r1 -> 0 < a1 -> prio r1 = prio r2 ->
  t1 + a1 <= t2 -> path hs r1 t1 a1 t1' a1' -> path hs r2 t2 a2 t2' a2' -> t1' + a1' <= t2'.
Proof.
  induction hs as [|h hs IH]; intros r1 r2 t1 a1 t2 a2 t1' a1' t2' a2' D S1 A1 PR L P1 P2.
  - inversion P1; inversion P2; subst. exact L.
  - inversion P1 as [|h1 hs1 q1 u1 b1 k1 s1 v1 c1 R1 I1 B1 E1 Q1]; subst.
    inversion P2 as [|h2 hs2 q2 u2 b2 k2 s2 v2 c2 R2 I2 B2 E2 Q2]; subst.
    inversion D; subst.
    destruct R1 as (ops & now & p & E & HS). rewrite HS in I1, I2.
    apply In_nth_error in I1 as [i I1]. apply In_nth_error in I2 as [j I2].
    assert (AA : arr k1 < arr k2).
    { rewrite E1, E2. unfold try_time.
      destruct (Nat.ltb_spec (h_delay h * size (body k1)) a1), (Nat.ltb_spec (h_delay h * size (body k2)) a2); nia. }
    pose proof (sculpin_port_order _ _ _ _ _ _ _ _ _ _ E I1 I2 PR AA) as O.
    eapply (IH (body k1) (body k2)); [assumption|assumption| |exact PR| |exact Q1|exact Q2]; nia.
Qed.

(** *** C136: the network interface *)

(** A message of less than 2^32 bytes is cut into full packets and a rest, as many bytes as it has. *)
Theorem sculpin_cut_partial : forall mtu bytes fuel, (0 < mtu)%N -> (bytes < 2 ^ 32)%N -> N.to_nat bytes < fuel ->
  exists l, cut fuel mtu bytes = Some l /\ fold_right N.add 0%N l = bytes /\
    forall i s, nth_error l i = Some s -> (0 < s <= mtu)%N /\ (S i < length l -> s = mtu).
Proof.
  intros mtu bytes fuel M. revert bytes. induction fuel as [|fuel IH]; intros bytes B F; [lia|]. simpl.
  destruct (N.ltb_spec 0 bytes) as [P|P].
  - rewrite N.mod_small by auto. set (s := N.min bytes mtu).
    assert (Hs : (0 < s <= mtu /\ s <= bytes)%N) by (unfold s; lia).
    destruct (IH (bytes - s)%N) as (l & E & SM & A); [lia|lia|]. rewrite E. exists (s :: l).
    split; [reflexivity|]. split; [simpl; rewrite SM; lia|].
    intros [|i] x X; simpl in X.
    + injection X as <-. split; [lia|]. simpl. intros L. destruct l as [|y l]; [simpl in L; lia|].
      assert (0 < y)%N by (apply (A 0 y eq_refl)). simpl in SM. unfold s in *. lia.
    + apply A in X as [X1 X2]. split; auto. simpl. intros L. apply X2. lia.
  - exists []. split; [reflexivity|]. split; [simpl; lia|]. intros [|i] s X; discriminate.
Qed.
(** A longer message is never sent completely: the loop does not end. *)
Theorem sculpin_cut_never_ends : forall mtu bytes, (2 ^ 32 <= bytes)%N -> forall fuel, cut fuel mtu bytes = None.
Proof.
  intros mtu bytes B fuel. revert bytes B. induction fuel as [|fuel IH]; intros bytes B; auto. cbn [cut].
  destruct (N.ltb_spec 0 bytes) as [P|P]; [|lia]. rewrite IH; auto.
  pose proof (N.mod_le bytes (2 ^ 32) ltac:(discriminate)).
  pose proof (N.div_mod bytes (2 ^ 32) ltac:(discriminate)) as DM.
  assert (1 <= bytes / 2 ^ 32)%N by (apply N.div_le_lower_bound; lia). nia.
Qed.
Theorem sculpin_cut_refuted : exists mtu bytes, (0 < mtu)%N /\
  ~ exists fuel l, cut fuel mtu bytes = Some l /\ fold_right N.add 0%N l = bytes.
Proof.
  exists 4096%N, (2 ^ 32)%N. split; [lia|]. intros (fuel & l & E & _).
  rewrite sculpin_cut_never_ends in E; [discriminate|lia].
Qed.
(** The packets are injected back to back, and the acknowledgement comes when the last has left. *)
Theorem sculpin_inject_times : forall d free now sizes l f, inject d free now sizes = (l, f) ->
  length l = length sizes /\
  (forall i t s, nth_error l i = Some (t, s) -> nth_error sizes i = Some s /\
     t = Nat.max free now + fold_right Nat.add 0 (firstn i sizes) * d) /\
  f = Nat.max free now + fold_right Nat.add 0 sizes * d.
Proof.
  intros d free now. unfold inject.
  assert (M : (if free <? now then now else free) = Nat.max free now) by (destruct (Nat.ltb_spec free now); lia).
  rewrite M. generalize (Nat.max free now) as b. clear.
  intros b sizes. revert b. induction sizes as [|s sizes IH]; simpl; intros b l f E.
  - injection E as <- <-. split; auto. split; [|lia]. intros [|i] t s X; discriminate.
  - destruct (inject_from d (b + s * d) sizes) as [l' f'] eqn:R. injection E as <- <-.
    apply IH in R as (R1 & R2 & R3). split; [simpl; lia|]. split; [|lia].
    intros [|i] t x X; simpl in X.
    + injection X as <- <-. simpl. split; [auto|lia].
    + apply R2 in X as [X1 X2]. split; auto. simpl. lia.
Qed.
(** A packet is handed up after its end has come, and ejections do not overlap. *)
Theorem sculpin_eject_times : forall d free s t a, let e := eject d free (eject_time d s t a) s in
  t + a <= e /\ t + s * d <= e /\ free + s * d <= e /\
  (free <= t -> s * d <= a -> e = t + a).
Proof.
  intros d free s t a. unfold eject, eject_time.
  destruct (Nat.ltb_spec (s * d) a); destruct (Nat.ltb_spec free (t + (a - s * d))), (Nat.ltb_spec free t); lia.
Qed.
(** Packets of one message that take the same way are handed up in the order of the message. *)
Theorem sculpin_flow_order : forall d free now sizes l f hs lat dej i j ti si tj sj ri rj ti' ai' tj' aj',
  inject d free now sizes = (l, f) -> i < j -> nth_error l i = Some (ti, si) -> nth_error l j = Some (tj, sj) ->
  0 < d -> 0 < si -> 0 < dej -> Forall (fun h => 0 < h_delay h) hs ->
  size ri = si -> size rj = sj -> prio ri = prio rj ->
  path hs ri (ti + lat) (si * d) ti' ai' -> path hs rj (tj + lat) (sj * d) tj' aj' ->
  eject_time dej si ti' ai' < eject_time dej sj tj' aj'.
Proof.
  intros d free now sizes l f hs lat dej i j ti si tj sj ri rj ti' ai' tj' aj' E L Ni Nj D Si De Hd Zi Zj PR Pi Pj.
  apply sculpin_inject_times in E as (E1 & E2 & E3).
  destruct (E2 _ _ _ Ni) as [F1 F2]. destruct (E2 _ _ _ Nj) as [G1 G2].
  assert (O : ti + si * d <= tj).
  { assert (X : fold_right Nat.add 0 (firstn i sizes) + si <= fold_right Nat.add 0 (firstn j sizes)).
    { clear - F1 L. revert i j F1 L. induction sizes as [|x sizes IH]; intros i j F1 L; [destruct i; discriminate|].
      destruct j as [|j]; [lia|]. destruct i as [|i]; simpl in *.
      - injection F1 as ->. lia.
      - specialize (IH i j F1 ltac:(lia)). lia. }
    nia. }
  assert (Q : ti' + ai' <= tj').
  { eapply (sculpin_path_order hs ri rj (ti + lat) (si * d) (tj + lat) (sj * d)); eauto; nia. }
  assert (AP : 0 < ai').
  { clear - Pi D Si Zi Hd. remember (si * d) as a. assert (A : 0 < a) by nia. clear Heqa.
    revert A Hd. induction Pi; intros A Hd; auto. inversion Hd; subst. apply IHPi; auto. nia. }
  unfold eject_time. destruct (Nat.ltb_spec (si * dej) ai'), (Nat.ltb_spec (sj * dej) aj'); nia.
Qed.

(** *** Examples *)
(** Three packets compete; the one with priority 0 that comes third goes second. *)
Example ex_port : exists now p,
  run true 2 [Try 10 (mkraw 1 5 1); Try 12 (mkraw 2 3 1); Try 13 (mkraw 3 4 0); Pull; Pull; Try 40 (mkraw 4 1 1)] 0 port0
    = Ok now p /\ map (fun y => (id (body (fst y)), snd y)) (sent p) = [(1, 10); (3, 20); (2, 28); (4, 40)].
Proof. eexists _, _. split; vm_compute; reflexivity. Qed.
(** A packet through two switches, the second with a faster link. *)
Example ex_path : exists t a, path
  [mkhop 2 7 [(mkpkt (mkraw 1 5 0) 10 0, 10)]; mkhop 1 7 [(mkpkt (mkraw 1 5 0) 22 0, 22)]] (mkraw 1 5 0) 10 3 t a.
Proof.
  eexists _, _.
  apply path_hop with (k := mkpkt (mkraw 1 5 0) 10 0) (s := 10); [|now left|reflexivity|reflexivity|].
  { exists [Try 10 (mkraw 1 5 0)]. eexists _, _. split; [vm_compute; reflexivity|reflexivity]. }
  apply path_hop with (k := mkpkt (mkraw 1 5 0) 22 0) (s := 22); [|now left|reflexivity|reflexivity|apply path_end].
  exists [Try 22 (mkraw 1 5 0)]. eexists _, _. split; [vm_compute; reflexivity|reflexivity].
Qed.
Example ex_cut : cut 10 4 10 = Some [4; 4; 2]%N.
Proof. reflexivity. Qed.
Example ex_inject : inject 2 7 10 [4; 4; 2] = ([(10, 4); (18, 4); (26, 2)], 30).
Proof. reflexivity. Qed.

Print Assumptions sculpin_port_never_aborts.
Print Assumptions sculpin_port_fifo.
Print Assumptions sculpin_port_priority.
Print Assumptions sculpin_port_drains.
Print Assumptions sculpin_port_uncongested.
Print Assumptions sculpin_link_times.
Print Assumptions sculpin_link_disjoint.
Print Assumptions sculpin_port_order.
Print Assumptions sculpin_tail_causal.
Print Assumptions sculpin_path_order.
Print Assumptions sculpin_cut_partial.
Print Assumptions sculpin_cut_never_ends.
Print Assumptions sculpin_cut_refuted.
Print Assumptions sculpin_inject_times.
Print Assumptions sculpin_eject_times.
Print Assumptions sculpin_flow_order.
