(* The NIC on queues that are lists *)
From Coq Require Import List ZArith Bool Arith Lia Permutation.
From Verif Require Import PtModel SjModel SjSpec.
Import ListNotations.
Local Open Scope Z_scope.

(* ---------- the pieces of a message ---------- *)

Lemma pieces_pos : forall mtu len, (1 <= pieces mtu len)%nat.
Proof. intros. unfold pieces. lia. Qed.

Lemma pieces_bounds : forall mtu len, 0 < mtu -> 0 <= len ->
  len <= Z.of_nat (pieces mtu len) * mtu /\ (Z.of_nat (pieces mtu len) - 1) * mtu <= len /\
  (len = 0 -> pieces mtu len = 1%nat) /\ (0 < len -> (Z.of_nat (pieces mtu len) - 1) * mtu < len).
Proof.
  intros mtu len M L. unfold pieces. rewrite Z2Nat.id by lia.
  pose proof (Z.div_mod (len + mtu - 1) mtu ltac:(lia)) as E.
  pose proof (Z.mod_pos_bound (len + mtu - 1) mtu M) as B.
  set (q := (len + mtu - 1) / mtu) in *. set (r := (len + mtu - 1) mod mtu) in *.
  assert (Q0 : 0 < len -> 1 <= q) by nia.
  assert (Q1 : len = 0 -> q = 0) by nia.
  destruct (Z.max_spec 1 q) as [[H ->]|[H ->]].
  - repeat split; nia.
  - destruct (Z.eq_dec len 0) as [Z0|Z0].
    + repeat split; nia.
    + assert (q = 1) by lia. repeat split; nia.
Qed.

Lemma piece_left : forall mtu len k, 0 < mtu -> 0 <= len -> (k < pieces mtu len)%nat ->
  0 <= len - Z.of_nat k * mtu /\
  (len - Z.of_nat k * mtu =? Z.min (len - Z.of_nat k * mtu) mtu) = Nat.eqb (S k) (pieces mtu len).
Proof.
  intros mtu len k M L K. destruct (pieces_bounds mtu len M L) as [B1 [B2 [B3 B4]]].
  set (P := pieces mtu len) in *. split; [nia|].
  destruct (Nat.eqb_spec (S k) P) as [E|E].
  - assert (len - Z.of_nat k * mtu <= mtu) by nia. apply Z.eqb_eq. lia.
  - assert (mtu < len - Z.of_nat k * mtu).
    { destruct (Z.eq_dec len 0) as [Z0|Z0]; [specialize (B3 Z0); lia|]. assert (0 < len) as LP by lia. specialize (B4 LP). nia. }
    apply Z.eqb_neq. lia.
Qed.

Definition piece (mtu : Z) (m : nmsg) (k : nat) : Z * Z * bool :=
  (Z.of_nat k * mtu, Z.min mtu (n_len m - Z.of_nat k * mtu), Nat.eqb (S k) (pieces mtu (n_len m))).
Lemma cut_length : forall mtu m, length (cut mtu m) = pieces mtu (n_len m).
Proof. intros. unfold cut. rewrite map_length, seq_length. reflexivity. Qed.
Lemma firstn_seq : forall n a k, (k <= n)%nat -> firstn k (seq a n) = seq a k.
Proof.
  induction n as [|n IH]; intros a k K; destruct k; cbn; try reflexivity; [lia|].
  rewrite IH by lia. reflexivity.
Qed.
Lemma cut_first : forall mtu m k, (k <= pieces mtu (n_len m))%nat ->
  firstn k (cut mtu m) = map (piece mtu m) (seq 0 k).
Proof. intros mtu m k K. unfold cut. rewrite firstn_map, firstn_seq by exact K. reflexivity. Qed.
Lemma cut_snoc : forall mtu m k, (k < pieces mtu (n_len m))%nat ->
  firstn (S k) (cut mtu m) = firstn k (cut mtu m) ++ [piece mtu m k].
Proof. intros mtu m k K. rewrite !cut_first by lia. rewrite seq_S, map_app. reflexivity. Qed.
Lemma cut_whole : forall mtu m k, S k = pieces mtu (n_len m) ->
  firstn k (cut mtu m) ++ [piece mtu m k] = cut mtu m.
Proof. intros mtu m k K. rewrite <- cut_snoc by lia. rewrite K, <- cut_length. apply firstn_all. Qed.
Lemma cut_no_tail : forall mtu m k, (k < pieces mtu (n_len m))%nat ->
  existsb snd (firstn k (cut mtu m)) = false.
Proof.
  intros mtu m k K. rewrite cut_first by lia. apply not_true_is_false. intro E. apply existsb_exists in E as [x [X T]].
  apply in_map_iff in X as [i [<- I]]. apply in_seq in I. unfold piece in T. cbn [snd] in T. apply Nat.eqb_eq in T. lia.
Qed.
Lemma cut_tail : forall mtu m, existsb snd (cut mtu m) = true.
Proof.
  intros mtu m. pose proof (pieces_pos mtu (n_len m)) as P.
  rewrite <- (cut_whole mtu m (pieces mtu (n_len m) - 1)) by lia.
  rewrite existsb_app. apply orb_true_intro. right. unfold piece. cbn [existsb snd]. rewrite orb_false_r. apply Nat.eqb_eq. lia.
Qed.
Lemma tail_shape : forall ps, existsb np_tail ps = existsb snd (map shape ps).
Proof. induction ps as [|p ps IH]; [reflexivity|]. cbn [existsb map]. rewrite IH. reflexivity. Qed.

Lemma NoDup_snoc : forall A (l : list A) x, NoDup l -> ~ In x l -> NoDup (l ++ [x]).
Proof.
  intros A l x N I. apply Permutation_NoDup with (l := x :: l); [apply Permutation_cons_append|constructor; assumption].
Qed.

(* ---------- queues that are lists ---------- *)

(* With [back] a message goes behind the others after each of its packets. *)
Definition list_q (back : bool) : iqueue (list (Z * nmsg)) := {|
  q_insert := fun off m q => q ++ [(off, m)];
  q_top := fun q => match q with [] => None | e :: _ => Some e end;
  q_pop := fun q => match q with [] => [] | _ :: r => r end;
  q_adjust := fun off q => match q with [] => [] | (_, m) :: r => if back then r ++ [(off, m)] else (off, m) :: r end;
  q_empty := fun q => match q with [] => true | _ => false end |}.

Lemma fifo_is_list : fifo_q = list_q false.
Proof. reflexivity. Qed.

Definition ids (l : list (Z * nmsg)) : list nat := map (fun e => n_id (snd e)) l.

Lemma of_msg_app : forall m x y, of_msg m (x ++ y) = of_msg m x ++ of_msg m y.
Proof. intros. unfold of_msg. apply filter_app. Qed.

Lemma same_id : forall h m m', distinct h -> In m (sent h) -> In m' (sent h) -> n_id m = n_id m' -> m = m'.
Proof.
  intros h m m' D. unfold distinct in D. induction (sent h) as [|x l IH]; [contradiction|].
  cbn in D. inversion D as [|? ? N D']; subst. intros [->|A] [->|B] E; auto.
  - exfalso. apply N. rewrite E. apply in_map. exact B.
  - exfalso. apply N. rewrite <- E. apply in_map. exact A.
Qed.
Lemma distinct_tail : forall x h, distinct (x :: h) -> distinct h.
Proof.
  intros [m|n|p] h D; [|exact D|exact D]. unfold distinct in *. cbn in D. rewrite map_app in D.
  apply NoDup_remove in D. cbn in D. rewrite app_nil_r in D. tauto.
Qed.

Section Lists.
Variable back : bool.
Variable c : ncfg.
Variables buf0 next0 : Z.
Hypothesis MTU : 0 < c_mtu c.
Hypothesis BUF : 0 <= buf0.
Let run := nrun (list_q back) c [] buf0 next0.

(* The packet at the front of the queue *)
Inductive front (l : list (Z * nmsg)) : Z -> Prop :=
| front_intro : forall off m r, l = (off, m) :: r -> front l (Z.min (n_len m - off) (c_mtu c)).

Record inv (h : list nobs) (s : nic (list (Z * nmsg))) : Prop := {
  i_ids : NoDup (ids (ni_q s));
  i_queue : forall off m, In (off, m) (ni_q s) -> In m (sent h) /\ exists k, (k < pieces (c_mtu c) (n_len m))%nat /\
    off = Z.of_nat k * c_mtu c /\ map shape (of_msg m (injected h)) = firstn k (cut (c_mtu c) m);
  i_sent : forall m, In m (sent h) -> (exists off, In (off, m) (ni_q s)) \/ map shape (of_msg m (injected h)) = cut (c_mtu c) m;
  i_known : forall p, In p (injected h) -> exists m, In m (sent h) /\ n_id m = np_id p;
  i_len : forall m, In m (sent h) -> 0 <= n_len m;
  i_buf : ni_buf s = buf0 + credits h - (if c_flow c then bytes (injected h) else 0);
  i_room : 0 <= ni_buf s;
  i_idle : ni_copying s = false -> ni_q s = [] \/ exists b, front (ni_q s) b /\ ni_buf s < b }.

Lemma bytes_app : forall x y, bytes (x ++ y) = bytes x + bytes y.
Proof. induction x as [|p x IH]; intro y; cbn [bytes fold_right app]; [reflexivity|]. fold (bytes (x ++ y)). fold (bytes x). rewrite IH. lia. Qed.

(* What a turn with a packet does *)
Lemma turn_packet : forall s p s', copy_turn (list_q back) c s = Packet p s' ->
  exists off m r, ni_q s = (off, m) :: r /\
    let left := n_len m - off in let size := Z.min left (c_mtu c) in
    size <= ni_buf s /\ np_id p = n_id m /\ shape p = (off, size, left =? size) /\
    pkt_qos c m < c_levels c /\ np_qos p = pkt_qos c m /\
    np_lane p = (if c_scatter c then ni_next s else n_qos m) /\
    s' = {| ni_q := if size =? left then r else (if back then r ++ [(off + size, m)] else (off + size, m) :: r);
            ni_buf := if c_flow c then ni_buf s - size else ni_buf s;
            ni_next := if c_scatter c then (ni_next s + 1) mod (c_levels c) else ni_next s;
            ni_copying := true |}.
Proof.
  intros s p s' H. unfold copy_turn in H. cbn [q_empty q_top q_pop q_adjust list_q] in H.
  destruct (ni_q s) as [|[off m] r] eqn:Q; [discriminate|].
  exists off, m, r. split; [reflexivity|]. intros left size. fold left in H. fold size in H.
  destruct (Z.leb_spec size (ni_buf s)) as [SZ|]; [|discriminate]. unfold inject in H. fold left in H. fold size in H.
  destruct (Z.leb_spec (c_levels c) (pkt_qos c m)); [discriminate|]. inversion H; subst.
  cbn [np_id np_qos np_lane shape np_off np_len np_tail]. repeat (split; [assumption || reflexivity|]). reflexivity.
Qed.
Lemma turn_stop : forall s s', copy_turn (list_q back) c s = Stop s' ->
  s' = {| ni_q := ni_q s; ni_buf := ni_buf s; ni_next := ni_next s; ni_copying := false |} /\
  (ni_q s = [] \/ exists b, front (ni_q s) b /\ ni_buf s < b).
Proof.
  intros s s' H. unfold copy_turn in H. cbn [q_empty q_top q_pop q_adjust list_q] in H.
  destruct (ni_q s) as [|[off m] r] eqn:Q; [inversion H; subst; split; [reflexivity|left; reflexivity]|].
  destruct (Z.leb_spec (Z.min (n_len m - off) (c_mtu c)) (ni_buf s)) as [SZ|SZ].
  - destruct (inject c off m (ni_next s)) as [[? ?]|]; discriminate.
  - inversion H; subst. split; [reflexivity|]. right. eexists. split; [econstructor; reflexivity|exact SZ].
Qed.

Lemma run_inv : forall h s, run h s -> distinct h -> inv h s.
Proof.
  intros h s R. induction R as [|h s m R IH NC L|h s n R IH NC N|h s s' R IH NC T|h s p s' R IH NC T]; intro D.
  - split; cbn; try contradiction; try constructor; try reflexivity; try lia. destruct (c_flow c); lia.
  - specialize (IH (distinct_tail _ _ D)). destruct IH as [A B C K LN BF RM ID].
    assert (FR : ~ In (n_id m) (map n_id (sent h))).
    { unfold distinct in D. cbn in D. rewrite map_app in D. apply NoDup_remove_2 in D. rewrite app_nil_r in D. exact D. }
    assert (NM : of_msg m (injected h) = []).
    { unfold of_msg. destruct (filter _ _) as [|p r] eqn:E; [reflexivity|]. exfalso.
      assert (In p (filter (fun q => Nat.eqb (np_id q) (n_id m)) (injected h))) as I by (rewrite E; left; reflexivity).
      apply filter_In in I as [I1 I2]. apply Nat.eqb_eq in I2. destruct (K p I1) as [m' [M1 M2]].
      apply FR. rewrite <- I2, <- M2. apply in_map. exact M1. }
    split; cbn [ni_q ni_buf ni_copying sent injected credits q_insert list_q].
    + unfold ids. rewrite map_app. cbn. apply NoDup_snoc.
      * exact A.
      * intro I. apply FR. apply in_map_iff in I as [[o x] [E I]]. cbn in E. rewrite <- E. apply in_map. apply (B o x I).
    + intros off x I. apply in_app_or in I as [I|[E|[]]].
      * destruct (B off x I) as [S W]. split; [apply in_or_app; left; exact S|exact W].
      * inversion E; subst. split; [apply in_or_app; right; left; reflexivity|]. exists 0%nat.
        split; [pose proof (pieces_pos (c_mtu c) (n_len x)); lia|]. split; [reflexivity|]. rewrite NM. reflexivity.
    + intros x I. apply in_app_or in I as [I|[<-|[]]].
      * destruct (C x I) as [[o I2]|E]; [left; exists o; apply in_or_app; left; exact I2|right; exact E].
      * left. exists 0. apply in_or_app. right. left. reflexivity.
    + intros p I. destruct (K p I) as [x [X1 X2]]. exists x. split; [apply in_or_app; left; exact X1|exact X2].
    + intros x I. apply in_app_or in I as [I|[<-|[]]]; auto.
    + exact BF.
    + exact RM.
    + discriminate.
  - specialize (IH D). destruct IH as [A B C K LN BF RM ID].
    split; cbn [ni_q ni_buf ni_copying sent injected credits]; auto; try lia; discriminate.
  - specialize (IH D). apply turn_stop in T as [-> T]. destruct IH as [A B C K LN BF RM ID].
    split; cbn [ni_q ni_buf ni_copying]; auto.
  - specialize (IH D). apply turn_packet in T as (off & m & r & Q & W). cbv zeta in W.
    destruct W as (SZ & PI & PS & _ & _ & _ & ->). destruct IH as [A B C K LN BF RM ID].
    destruct (B off m) as [SM [k [KL [KO KS]]]]; [rewrite Q; left; reflexivity|].
    pose proof (LN m SM) as ML.
    destruct (piece_left (c_mtu c) (n_len m) k MTU ML KL) as [PL PT]. rewrite <- KO in PL, PT.
    set (left := n_len m - off) in *. set (size := Z.min left (c_mtu c)) in *.
    assert (SP : shape p = piece (c_mtu c) m k).
    { rewrite PS. unfold piece. rewrite <- KO. fold left. rewrite <- PT. rewrite Z.min_comm. reflexivity. }
    assert (NOW : map shape (of_msg m (injected h ++ [p])) = firstn (S k) (cut (c_mtu c) m)).
    { rewrite of_msg_app, map_app, KS. unfold of_msg. cbn [filter]. rewrite PI, Nat.eqb_refl. cbn [map]. rewrite SP.
      symmetry. apply cut_snoc. exact KL. }
    assert (OTH : forall x, n_id x <> n_id m -> of_msg x (injected h ++ [p]) = of_msg x (injected h)).
    { intros x X. rewrite of_msg_app. unfold of_msg at 2. cbn [filter]. rewrite PI.
      destruct (Nat.eqb_spec (n_id m) (n_id x)); [congruence|]. apply app_nil_r. }
    rewrite Q in A. cbn in A. apply NoDup_cons_iff in A as [NI NR].
    assert (RID : forall o x, In (o, x) r -> n_id x <> n_id m).
    { intros o x I E. apply NI. unfold ids. rewrite <- E. apply (in_map (fun e => n_id (snd e)) r (o, x) I). }
    assert (KEEP : forall o x, In (o, x) r -> In x (sent h) /\ exists j, (j < pieces (c_mtu c) (n_len x))%nat /\
      o = Z.of_nat j * c_mtu c /\ map shape (of_msg x (injected h ++ [p])) = firstn j (cut (c_mtu c) x)).
    { intros o x I. destruct (B o x) as [S [j [J1 [J2 J3]]]]; [rewrite Q; right; exact I|].
      split; [exact S|]. exists j. repeat (split; [assumption|]). rewrite OTH by (eapply RID; exact I). exact J3. }
    assert (DONE : forall x, In x (sent h) -> x <> m -> (exists o, In (o, x) r) \/
      map shape (of_msg x (injected h ++ [p])) = cut (c_mtu c) x).
    { intros x X NE. assert (n_id x <> n_id m) as NID by (intro E; apply NE; eapply same_id; eauto).
      destruct (C x X) as [[o I]|E].
      - rewrite Q in I. destruct I as [E|I]; [congruence|]. left. exists o. exact I.
      - right. rewrite OTH by exact NID. exact E. }
    assert (MDEC : forall x, {x = m} + {x <> m}).
    { intro x. destruct x as [a1 a2 a3 a4], m as [b1 b2 b3 b4]. destruct (Nat.eq_dec a1 b1), (Z.eq_dec a2 b2), (Z.eq_dec a3 b3), (bool_dec a4 b4);
        try (right; congruence). left. congruence. }
    assert (SZ0 : 0 <= size) by (unfold size; lia).
    assert (BB : bytes (injected h ++ [p]) = bytes (injected h) + size).
    { rewrite bytes_app. cbn. unfold shape in PS. inversion PS. lia. }
    assert (KN : forall p0, In p0 (injected h ++ [p]) -> exists m0, In m0 (sent h) /\ n_id m0 = np_id p0).
    { intros p0 I. apply in_app_or in I as [I|[<-|[]]]; [apply K; exact I|]. exists m. split; [exact SM|congruence]. }
    rewrite Z.eqb_sym in PT. rewrite PT.
    destruct (Nat.eqb_spec (S k) (pieces (c_mtu c) (n_len m))) as [LAST|MORE].
    + split; cbn [ni_q ni_buf ni_copying sent injected credits]; auto.
      * intros x X. destruct (MDEC x) as [->|NE]; [|apply DONE; assumption]. right. rewrite NOW, LAST, <- cut_length. apply firstn_all.
      * destruct (c_flow c); lia.
      * destruct (c_flow c); lia.
      * discriminate.
    + assert (SIZE : size = c_mtu c).
      { apply Z.eqb_neq in PT. unfold size in *. lia. }
      assert (OFF : off + size = Z.of_nat (S k) * c_mtu c) by lia.
      assert (ME : In m (sent h) /\ exists j, (j < pieces (c_mtu c) (n_len m))%nat /\
        off + size = Z.of_nat j * c_mtu c /\ map shape (of_msg m (injected h ++ [p])) = firstn j (cut (c_mtu c) m)).
      { split; [exact SM|]. exists (S k). split; [lia|]. split; [exact OFF|exact NOW]. }
      assert (QIN : forall o x, In (o, x) (if back then r ++ [(off + size, m)] else (off + size, m) :: r) <-> In (o, x) r \/ (o, x) = (off + size, m)).
      { intros o x. destruct back; [rewrite in_app_iff|]; cbn; intuition. }
      split; cbn [ni_q ni_buf ni_copying sent injected credits].
      * destruct back.
        -- unfold ids. rewrite map_app. cbn. apply NoDup_snoc; assumption.
        -- cbn. constructor; assumption.
      * intros o x I. apply QIN in I as [I|E]; [apply KEEP; exact I|]. inversion E; subst. exact ME.
      * intros x X. destruct (MDEC x) as [->|NE].
        -- left. exists (off + size). apply QIN. right. reflexivity.
        -- destruct (DONE x X NE) as [[o I]|E]; [left; exists o; apply QIN; left; exact I|right; exact E].
      * exact KN.
      * exact LN.
      * destruct (c_flow c); lia.
      * destruct (c_flow c); lia.
      * discriminate.
Qed.
End Lists.
