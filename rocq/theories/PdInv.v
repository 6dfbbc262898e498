(* The invariant of point-to-point runs: what each message and request has in memory, and
   how messages, flows and the history belong together *)
From Coq Require Import List ZArith Bool Arith Lia Permutation.
From Verif Require Import DtModel DtSpec DtProof PdModel PdSpec PdHeap.
Import ListNotations.
Local Open Scope Z_scope.

(* ---------- the rules ---------- *)

Lemma obeys_tail : forall o h, obeys (o ++ h) -> obeys h.
Proof. induction o as [|e o IH]; intros h O; [exact O|]. destruct O as (O & _). auto. Qed.

Lemma obeys_apart : forall h b, obeys h -> sending b h -> receiving b h -> False.
Proof.
  induction h as [|e h IH]; intros b O S R; [destruct S as (? & ? & ? & ? & [] & _)|].
  destruct O as (O & E). destruct S as (f & d & n & src & S & SN), R as (r & d2 & n2 & dst & R & RN).
  assert (SN' : ~ In (OSendDone f) h) by (intros K; apply SN; now right).
  assert (RN' : forall f out, ~ In (ORecvDone r f out) h) by (intros f0 out K; apply (RN f0 out); now right).
  destruct S as [->|S], R as [R|R]; try discriminate.
  - apply E. exists r, d2, n2, dst. auto.
  - subst e. apply (proj1 E). exists f, d, n, src. auto.
  - apply (IH b O); [exists f, d, n, src; auto|exists r, d2, n2, dst; auto].
Qed.

Lemma obeys_one : forall h b r d n dst r' d' n' dst', obeys h ->
  In (ORecv r b d n dst) h -> (forall f out, ~ In (ORecvDone r f out) h) ->
  In (ORecv r' b d' n' dst') h -> (forall f out, ~ In (ORecvDone r' f out) h) -> r = r'.
Proof.
  induction h as [|e h IH]; intros b r d n dst r' d' n' dst' O I N I' N'; [destruct I|].
  destruct O as (O & E).
  assert (M : forall f out, ~ In (ORecvDone r f out) h) by (intros f0 out K; apply (N f0 out); now right).
  assert (M' : forall f out, ~ In (ORecvDone r' f out) h) by (intros f0 out K; apply (N' f0 out); now right).
  destruct I as [->|I], I' as [I'|I'].
  - congruence.
  - exfalso. apply (proj2 E). exists r', d', n', dst'. auto.
  - subst e. exfalso. apply (proj2 E). exists r, d, n, dst. auto.
  - eapply (IH b r d n dst r'); eauto.
Qed.

Lemma types_tail : forall o h, types_ok (o ++ h) -> types_ok h.
Proof.
  intros o h (A & B). split; intros.
  - apply (A f b d n src). apply in_or_app. now right.
  - apply (B r b d n dst). apply in_or_app. now right.
Qed.
Lemma fits_tail : forall o h, fits (o ++ h) -> fits h.
Proof. intros o h F r f b1 d1 n1 src b2 d2 n2 dst A B C. apply (F r f b1 d1 n1 src b2 d2 n2 dst); apply in_or_app; now right. Qed.
Lemma rules_tail : forall o h, rules (o ++ h) -> rules h.
Proof. intros o h (A & B & C). split; [|split]; [eapply obeys_tail|eapply types_tail|eapply fits_tail]; eauto. Qed.

(* ---------- kinds of messages ---------- *)

Section Inv.
Variable c : pcfg.

Definition fid (it : item) : nat := g_id (snd it).
(* Temporaries that only this message refers to *)
Definition own (it : item) : list nat :=
  let m := snd it in
  flat_map tmp
  match g_ty m with
  | Smsg => match g_prot m with
            | Eager0 => [g_smsg m; g_wire m]
            | Eager1 => [g_partner m]
            | Rendezvous => match g_stage m with O => [g_partner m] | S _ => [] end
            end
  | GetReq => [g_remote m; g_local m]
  | GetPay => match fst it, g_path m with
              | Net, Inter => [g_wire m; g_local m]
              | Net, _ => [g_remote m; g_local m]
              | _, _ => [g_local m]
              end
  | SmsgAck => []
  | GetAck => match g_prot m with Eager1 => [g_remote m] | _ => [] end
  end.
Definition ownq (q : rreq) : list nat := tmp (q_recv q).

(* Not an injection ack *)
Definition main (it : item) : bool := match g_ty (snd it) with SmsgAck | GetAck => false | _ => true end.
(* The send completes with this message or a later one. *)
Definition carrier (it : item) : bool :=
  let m := snd it in
  match g_prot m, g_ty m with
  | Rendezvous, GetPay => c_soft c || match fst it, g_path m with Net, Inter => false | Net, _ => true | _, _ => false end
  | Rendezvous, SmsgAck => false
  | Rendezvous, _ => true
  | _, _ => false
  end.
(* Brings data to a matched receive *)
Definition getter (it : item) : bool :=
  match g_prot (snd it), g_ty (snd it) with Rendezvous, GetReq | Rendezvous, GetPay => true | _, _ => false end.
(* To be matched, now or later *)
Definition waiting (it : item) : bool :=
  match g_prot (snd it), g_ty (snd it) with
  | Rendezvous, Smsg => match g_stage (snd it) with O => true | S _ => false end
  | Rendezvous, _ => false
  | _, SmsgAck | _, GetAck => false
  | _, _ => true
  end.
Definition ids (P : item -> bool) (its : list item) : list nat := map fid (filter P its).

Lemma ids_cons : forall P it its, ids P (it :: its) = (if P it then [fid it] else []) ++ ids P its.
Proof. intros. unfold ids. cbn [filter]. destruct (P it); reflexivity. Qed.
Lemma ids_app : forall P a b, ids P (a ++ b) = ids P a ++ ids P b.
Proof. intros. unfold ids. now rewrite filter_app, map_app. Qed.
Lemma ids_in : forall P its f, In f (ids P its) <-> exists it, In it its /\ P it = true /\ fid it = f.
Proof.
  intros P its f. unfold ids. rewrite in_map_iff. split.
  - intros (it & E & I). apply filter_In in I. exists it. tauto.
  - intros (it & I & E & F). exists it. split; [exact F|]. now apply filter_In.
Qed.
Lemma ids_perm : forall P a b, Permutation a b -> Permutation (ids P a) (ids P b).
Proof.
  intros P a b H. induction H.
  - constructor.
  - rewrite !ids_cons. now apply Permutation_app_head.
  - rewrite !ids_cons, !app_assoc. apply Permutation_app_tail. apply Permutation_app_comm.
  - eapply Permutation_trans; eauto.
Qed.

(* ---------- messages and memory ---------- *)

Definition nobuf (m : pmsg) : Prop := g_smsg m = Null /\ g_wire m = Null.
(* The receive that a message is for *)
Definition for_req (h : list pobs) (R : list (nat * rreq)) (m : pmsg) (d : dt) (n : nat)
    (P : rreq -> nat -> dt -> nat -> mem Z -> Prop) : Prop :=
  exists q b2 d2 n2 dst, In (g_id m, q) R /\ target h q b2 d2 n2 dst /\ blocks_pos d2 /\ fitting d n d2 n2 /\
    g_local m = q_recv q /\ P q b2 d2 n2 dst.

Definition body (h : list pobs) (H : hp) (R : list (nat * rreq)) (it : item) (b : nat) (d : dt) (n : nat) (src : mem Z) : Prop :=
  let m := snd it in
  match g_prot m, g_ty m with
  | Eager0, Smsg => g_len m = size_of d n /\ g_pay m = size_of d n /\ g_ack m = true /\
    match fst it, g_path m with
    | Net, Inter => g_smsg m = Null /\ full H d n src (g_wire m)
    | _, _ => g_wire m = Null /\ full H d n src (g_smsg m)
    end
  | Eager0, SmsgAck => fst it <> Unexp /\ nobuf m
  | Eager1, Smsg => fst it <> Unexp /\ nobuf m /\ g_ack m = false /\ full H d n src (g_partner m)
  | Eager1, GetReq => fst it = Net /\ g_path m = Inter /\ nobuf m /\ g_ack m = true /\ g_pay m = size_of d n /\
      full H d n src (g_remote m) /\ room H (size_of d n) (g_local m)
  | Eager1, GetPay => g_smsg m = Null /\ g_ack m = true /\ g_pay m = size_of d n /\
    match fst it, g_path m with
    | Net, Inter => full H d n src (g_wire m) /\ room H (size_of d n) (g_local m)
    | Net, _ => g_wire m = Null /\ full H d n src (g_remote m) /\ room H (size_of d n) (g_local m)
    | _, _ => g_wire m = Null /\ full H d n src (g_local m)
    end
  | Eager1, GetAck => fst it <> Unexp /\ nobuf m /\ room H (size_of d n) (g_remote m)
  | Rendezvous, Smsg => nobuf m /\ g_ack m = false /\
    match g_stage m with
    | O => src_ok H b d n src (g_partner m)
    | S _ => fst it <> Unexp /\ c_soft c = true
    end
  | Rendezvous, GetReq => fst it = Net /\ g_path m = Inter /\ nobuf m /\ g_ack m = negb (c_soft c) /\ g_pay m = size_of d n /\
      src_ok H b d n src (g_remote m) /\ for_req h R m d n (idle_q H)
  | Rendezvous, GetPay => fst it <> Unexp /\ g_smsg m = Null /\ g_ack m = negb (c_soft c) /\ g_pay m = size_of d n /\
    match fst it, g_path m with
    | Net, Inter => full H d n src (g_wire m) /\ for_req h R m d n (idle_q H)
    | Net, _ => g_wire m = Null /\ src_ok H b d n src (g_remote m) /\ for_req h R m d n (idle_q H)
    | _, _ => g_wire m = Null /\ for_req h R m d n (filled_q H d n src)
    end
  | Rendezvous, GetAck => fst it <> Unexp /\ nobuf m
  | _, _ => False
  end.

Definition okm (h : list pobs) (H : hp) (R : list (nat * rreq)) (it : item) : Prop :=
  exists b d n src, In (OSend (fid it) b d n src) h /\ g_count (snd it) = Z.of_nat n /\
    g_tsize (snd it) = Z.of_nat (msize (build d)) /\ g_prot (snd it) = choose c (size_of d n) /\
    body h H R it b d n src.

(* Buffers of the program that the message refers to *)
Definition uses (h : list pobs) (R : list (nat * rreq)) (it : item) (b : nat) : Prop :=
  (carrier it = true /\ exists d n src, In (OSend (fid it) b d n src) h) \/
  (getter it = true /\ exists q, In (fid it, q) R /\ q_final q = User b).

Lemma full_keep : forall H H' d n src p, full H d n src p ->
  (forall k, In k (tmp p) -> hp_heap H' k = hp_heap H k) -> full H' d n src p.
Proof. intros H H' d n src p (k & m & -> & E & P) K. exists k, m. rewrite K by now left. auto. Qed.
Lemma room_keep : forall H H' sz p, room H sz p ->
  (forall k, In k (tmp p) -> hp_heap H' k = hp_heap H k) -> room H' sz p.
Proof. intros H H' sz p (k & m & -> & E) K. exists k, m. rewrite K by now left. auto. Qed.
Lemma src_keep : forall H H' b d n src p, src_ok H b d n src p ->
  (forall k, In k (tmp p) -> hp_heap H' k = hp_heap H k) -> hp_user H' b = hp_user H b -> src_ok H' b d n src p.
Proof. intros H H' b d n src p [(CF & F)|(-> & C & E)] K U; [left; split; [exact CF|]; eapply full_keep; eauto|right; rewrite U; auto]. Qed.
Lemma idle_keep : forall H H' q b d n dst, idle_q H q b d n dst ->
  (forall k, In k (ownq q) -> hp_heap H' k = hp_heap H k) -> hp_user H' b = hp_user H b -> idle_q H' q b d n dst.
Proof.
  intros H H' q b d n dst (E & I) K U. split; [now rewrite U|]. destruct (mcontig (build d)); [exact I|].
  eapply room_keep; eauto.
Qed.
Lemma filled_keep : forall H H' d1 n1 src q b d n dst, filled_q H d1 n1 src q b d n dst ->
  (forall k, In k (ownq q) -> hp_heap H' k = hp_heap H k) -> hp_user H' b = hp_user H b -> filled_q H' d1 n1 src q b d n dst.
Proof.
  intros H H' d1 n1 src q b d n dst F K U. unfold filled_q in *. rewrite U. destruct (mcontig (build d)); [exact F|].
  destruct F as (E & k & m & Q & EH & P). split; [exact E|]. exists k, m. rewrite K by (unfold ownq; rewrite Q; now left). auto.
Qed.
Lemma req_keep : forall h h' R R' m d n (P P' : rreq -> nat -> dt -> nat -> mem Z -> Prop),
  for_req h R m d n P -> incl h h' -> (forall q, In (g_id m, q) R -> In (g_id m, q) R') ->
  (forall q b2 d2 n2 dst, In (g_id m, q) R -> target h q b2 d2 n2 dst -> g_local m = q_recv q -> P q b2 d2 n2 dst -> P' q b2 d2 n2 dst) ->
  for_req h' R' m d n P'.
Proof.
  intros h h' R R' m d n P P' (q & b2 & d2 & n2 & dst & I & T & B & F & L & X) IN RR PP.
  exists q, b2, d2, n2, dst. pose proof T as (T1 & T2). split; [auto|]. split; [split; [auto|exact T2]|].
  split; [exact B|]. split; [exact F|]. split; [exact L|]. eapply PP; eauto.
Qed.

Lemma okm_frame : forall h h' H H' R R' it, okm h H R it -> incl h h' ->
  (forall k, In k (own it) -> hp_heap H' k = hp_heap H k) ->
  (forall b, uses h R it b -> hp_user H' b = hp_user H b) ->
  (getter it = true -> forall q, In (fid it, q) R -> In (fid it, q) R') -> okm h' H' R' it.
Proof.
  intros h h' H H' R R' [pl m] (b & d & n & src & I & C & T & PR & B) IN K U G.
  exists b, d, n, src. split; [now apply IN|]. split; [exact C|]. split; [exact T|]. split; [exact PR|].
  assert (UB : carrier (pl, m) = true -> hp_user H' b = hp_user H b).
  { intros CA. apply U. left. split; [exact CA|]. eauto. }
  assert (UQ : getter (pl, m) = true -> forall q b2 d2 n2 dst, In (fid (pl, m), q) R -> target h q b2 d2 n2 dst -> hp_user H' b2 = hp_user H b2).
  { intros CA q b2 d2 n2 dst Q (_ & _ & _ & Q2). apply U. right. split; [exact CA|]. exists q. auto. }
  clear U.
  unfold body, own, carrier, getter, fid in *. cbn [fst snd] in *.
  assert (KI : forall q b2 d2 n2 dst, getter (pl, m) = true -> (forall k, In k (tmp (g_local m)) -> hp_heap H' k = hp_heap H k) ->
    In (g_id m, q) R -> target h q b2 d2 n2 dst -> g_local m = q_recv q -> idle_q H q b2 d2 n2 dst -> idle_q H' q b2 d2 n2 dst).
  { intros q b2 d2 n2 dst CA KL Q TT L X. apply (idle_keep H); [exact X| |eapply UQ; eauto]. unfold ownq. now rewrite <- L. }
  assert (KF : forall q b2 d2 n2 dst, getter (pl, m) = true -> (forall k, In k (tmp (g_local m)) -> hp_heap H' k = hp_heap H k) ->
    In (g_id m, q) R -> target h q b2 d2 n2 dst -> g_local m = q_recv q -> filled_q H d n src q b2 d2 n2 dst -> filled_q H' d n src q b2 d2 n2 dst).
  { intros q b2 d2 n2 dst CA KL Q TT L X. apply (filled_keep H); [exact X| |eapply UQ; eauto]. unfold ownq. now rewrite <- L. }
  unfold getter in KI, KF. cbn [snd] in KI, KF.
  destruct (g_prot m), (g_ty m); try contradiction; try exact B; cbn [flat_map] in K; rewrite ?app_nil_r in K.
  - destruct B as (B1 & B2 & B3 & B). repeat (split; [assumption|]).
    destruct pl; [destruct (g_path m)| |]; destruct B as (B4 & B5); (split; [assumption|]); (eapply full_keep; [exact B5|intros; apply K; rewrite in_app_iff; auto]).
  - destruct B as (B1 & B2 & B3 & B). repeat (split; [assumption|]). eapply full_keep; eauto.
  - destruct B as (B1 & B2 & B3 & B4 & B5 & B6 & B). repeat (split; [assumption|]).
    split; [eapply full_keep; eauto|eapply room_keep; eauto]; intros; apply K; rewrite in_app_iff; auto.
  - destruct B as (B1 & B2 & B3 & B). repeat (split; [assumption|]).
    destruct pl; [destruct (g_path m)| |]; cbn [flat_map] in K; rewrite ?app_nil_r in K;
      first [ destruct B as (B4 & B5 & B6); split; [assumption|];
              split; [eapply full_keep; eauto|eapply room_keep; eauto]; intros; apply K; rewrite in_app_iff; now auto
            | destruct B as (B5 & B6); split; [eapply full_keep; eauto|eapply room_keep; eauto]; intros; apply K; rewrite in_app_iff; now auto
            | destruct B as (B4 & B5); split; [assumption|]; eapply full_keep; eauto ].
  - destruct B as (B1 & B2 & B). repeat (split; [assumption|]). eapply room_keep; eauto.
  - destruct B as (B1 & B2 & B). repeat (split; [assumption|]). destruct (g_stage m); [|exact B].
    cbn [flat_map] in K; rewrite ?app_nil_r in K. eapply src_keep; eauto.
  - destruct B as (B1 & B2 & B3 & B4 & B5 & B6 & B). repeat (split; [assumption|]).
    split; [eapply src_keep; eauto; intros; apply K; rewrite in_app_iff; now auto|].
    eapply req_keep; eauto. intros. eapply KI; eauto. intros; apply K; rewrite in_app_iff; now auto.
  - destruct B as (B1 & B2 & B3 & B4 & B). repeat (split; [assumption|]).
    destruct pl; [destruct (g_path m)| |]; cbn [flat_map] in K; rewrite ?app_nil_r in K.
    1, 2: destruct B as (B5 & B6 & B); split; [assumption|];
      (split; [eapply src_keep; eauto; [intros; apply K; rewrite in_app_iff; now auto|apply UB; apply orb_true_r]|]);
      eapply req_keep; eauto; intros; eapply KI; eauto; intros; apply K; rewrite in_app_iff; now auto.
    1: destruct B as (B5 & B); (split; [eapply full_keep; eauto; intros; apply K; rewrite in_app_iff; now auto|]);
      eapply req_keep; eauto; intros; eapply KI; eauto; intros; apply K; rewrite in_app_iff; now auto.
    1, 2: destruct B as (B5 & B); split; [assumption|]; eapply req_keep; eauto.
Qed.

Record minv (h : list pobs) (H : hp) (its : list item) (posted : list rreq) (R : list (nat * rreq)) : Prop := {
  m_items : forall it, In it its -> okm h H R it;
  m_posted : forall q, In q posted -> exists b d n dst, target h q b d n dst /\ idle_q H q b d n dst;
  m_own : NoDup (flat_map own its ++ flat_map ownq posted);
  m_lt : forall k, In k (flat_map own its ++ flat_map ownq posted) -> (k < hp_next H)%nat;
  m_unborn : unborn H }.

Lemma flat_perm : forall A B (f : A -> list B) a b, Permutation a b -> Permutation (flat_map f a) (flat_map f b).
Proof.
  intros A B f a b P. induction P; cbn [flat_map].
  - constructor.
  - now apply Permutation_app_head.
  - rewrite !app_assoc. apply Permutation_app_tail. apply Permutation_app_comm.
  - eapply Permutation_trans; eauto.
Qed.

Lemma minv_perm : forall h H its its' posted posted' R, Permutation its its' -> Permutation posted posted' ->
  minv h H its posted R -> minv h H its' posted' R.
Proof.
  intros h H its its' posted posted' R P Q [A B C D E].
  assert (PP : Permutation (flat_map own its ++ flat_map ownq posted) (flat_map own its' ++ flat_map ownq posted'))
    by (apply Permutation_app; now apply flat_perm).
  constructor; auto.
  - intros it I. apply A. eapply Permutation_in; [apply Permutation_sym, P|exact I].
  - intros q I. apply B. eapply Permutation_in; [apply Permutation_sym, Q|exact I].
  - eapply Permutation_NoDup; eauto.
  - intros k I. apply D. eapply Permutation_in; [apply Permutation_sym, PP|exact I].
Qed.

Lemma NoDup_app_iff : forall A (a b : list A), NoDup (a ++ b) <-> NoDup a /\ NoDup b /\ (forall x, In x a -> ~ In x b).
Proof.
  intros A a b. induction a as [|x a IH]; cbn [app].
  - split; [intros N; repeat split; auto; constructor|tauto].
  - rewrite !NoDup_cons_iff, in_app_iff, IH. split.
    + intros (N & N1 & N2 & N3). repeat split; auto. intros y [->|Y]; auto.
    + intros ((N & N1) & N2 & N3). repeat split; auto.
      * intros [Y|Y]; [auto|]. apply (N3 x); cbn; auto.
      * intros y Y. apply N3. now right.
Qed.

Lemma minv_step : forall h h' H H' old its rest dq posted R R', minv h H (old ++ rest) (dq ++ posted) R ->
  incl h h' -> keeps (flat_map own old ++ flat_map ownq dq) H H' -> (hp_next H <= hp_next H')%nat -> unborn H' ->
  (forall x, In x its -> okm h' H' R' x) -> NoDup (flat_map own its) ->
  (forall k, In k (flat_map own its) -> In k (flat_map own old ++ flat_map ownq dq) \/ (hp_next H <= k < hp_next H')%nat) ->
  (forall x, In x rest -> forall b, uses h R x b -> hp_user H' b = hp_user H b) ->
  (forall x, In x rest -> getter x = true -> forall q, In (fid x, q) R -> In (fid x, q) R') ->
  (forall q b d n dst, In q posted -> target h q b d n dst -> hp_user H' b = hp_user H b) ->
  minv h' H' (its ++ rest) posted R'.
Proof.
  intros h h' H H' old its rest dq posted R R' [A B C D E] IN K LE U OK ND OW UR RR UP.
  rewrite !flat_map_app in C, D. rewrite !NoDup_app_iff in C. destruct C as ((C1 & C2 & C3) & (C4 & C5 & C6) & C7).
  assert (KR : forall x k, In x rest -> In k (own x) -> hp_heap H' k = hp_heap H k).
  { intros x k X Y. assert (Z : In k (flat_map own rest)) by (apply in_flat_map; eauto).
    apply K; [apply D; rewrite !in_app_iff; auto|]. rewrite in_app_iff. intros [V|V].
    - apply (C3 k); auto.
    - apply (C7 k); rewrite in_app_iff; auto. }
  assert (KP : forall x k, In x posted -> In k (ownq x) -> hp_heap H' k = hp_heap H k).
  { intros x k X Y. assert (Z : In k (flat_map ownq posted)) by (apply in_flat_map; eauto).
    apply K; [apply D; rewrite !in_app_iff; auto|]. rewrite in_app_iff. intros [V|V].
    - apply (C7 k); rewrite in_app_iff; auto.
    - apply (C6 k); auto. }
  constructor.
  - intros x X. apply in_app_or in X. destruct X as [X|X]; [auto|].
    apply (okm_frame h h' H H' R R' x); [|exact IN| |now apply UR|now apply RR].
    + apply A. apply in_or_app. now right.
    + intros k Y. eapply KR; eauto.
  - intros q Q. destruct (B q) as (b & d & n & dst & T & I); [apply in_or_app; now right|].
    exists b, d, n, dst. pose proof T as (T1 & T2). split; [split; auto|].
    apply (idle_keep H); auto; [intros; eapply KP; eauto|eapply UP; eauto].
  - rewrite flat_map_app, !NoDup_app_iff. split; [split; [exact ND|split; [exact C2|]]|split; [exact C5|]].
    + intros k Y Z. destruct (OW k Y) as [V|V].
      * rewrite in_app_iff in V. destruct V as [V|V]; [apply (C3 k); auto|].
        apply (C7 k); rewrite in_app_iff; auto.
      * assert (k < hp_next H)%nat by (apply D; rewrite !in_app_iff; auto). lia.
    + intros k Y Z. rewrite in_app_iff in Y. destruct Y as [Y|Y].
      * destruct (OW k Y) as [V|V].
        -- rewrite in_app_iff in V. destruct V as [V|V]; [|apply (C6 k); auto].
           apply (C7 k); rewrite in_app_iff; auto.
        -- assert (k < hp_next H)%nat by (apply D; rewrite !in_app_iff; auto). lia.
      * apply (C7 k); rewrite in_app_iff; auto.
  - intros k Y. rewrite flat_map_app, !in_app_iff in Y. destruct Y as [[Y|Y]|Y].
    + destruct (OW k Y) as [V|V]; [|lia]. assert (k < hp_next H)%nat; [|lia].
      apply D. rewrite !in_app_iff in *. tauto.
    + assert (k < hp_next H)%nat; [|lia]. apply D. rewrite !in_app_iff. auto.
    + assert (k < hp_next H)%nat; [|lia]. apply D. rewrite !in_app_iff. auto.
  - exact U.
Qed.

(* ---------- messages, flows and history ---------- *)

Record linv (h : list pobs) (its : list item) (posted : list rreq) (Sd : list nat) (R : list (nat * rreq)) (fl rq : nat) : Prop := {
  l_fl : forall f b d n src, In (OSend f b d n src) h -> (f < fl)%nat;
  l_fl1 : forall f b d n src b' d' n' src', In (OSend f b d n src) h -> In (OSend f b' d' n' src') h ->
    b = b' /\ d = d' /\ n = n' /\ src = src';
  l_rq : forall r b d n dst, In (ORecv r b d n dst) h -> (r < rq)%nat;
  l_rq1 : forall r b d n dst b' d' n' dst', In (ORecv r b d n dst) h -> In (ORecv r b' d' n' dst') h ->
    b = b' /\ d = d' /\ n = n' /\ dst = dst';
  l_item : forall it, In it its -> (fid it < fl)%nat;
  l_main : NoDup (ids main its);
  l_carry : Permutation (ids carrier its) Sd;
  l_snd : NoDup Sd;
  l_open : forall f, In f Sd -> ~ In (OSendDone f) h;
  l_sd : forall f, In (OSendDone f) h -> (f < fl)%nat;
  l_sdx : forall f, In (OSendDone f) h -> exists b d n src, In (OSend f b d n src) h;
  l_sopen : forall f b d n src, In (OSend f b d n src) h -> In f Sd \/ In (OSendDone f) h;
  l_nds : NoDup (sends_done h);
  l_get : Permutation (ids getter its) (map fst R);
  l_rids : NoDup (map q_id posted ++ map (fun e => q_id (snd e)) R);
  l_in : forall q, In q posted \/ In q (map snd R) -> exists b d n dst, In (ORecv (q_id q) b d n dst) h;
  l_ropen : forall q, In q posted \/ In q (map snd R) -> forall f out, ~ In (ORecvDone (q_id q) f out) h;
  l_pno : forall q, In q posted -> forall f, ~ In (OMatch (q_id q) f) h;
  l_match : forall r f, In (OMatch r f) h -> (exists out, In (ORecvDone r f out) h) \/ (exists q, In (f, q) R /\ q_id q = r);
  l_mr : forall r f, In (OMatch r f) h -> (r < rq)%nat;
  l_wait : forall it, In it its -> waiting it = true -> ~ In (fid it) (flows_matched h);
  l_mlt : forall f, In f (flows_matched h) -> (f < fl)%nat;
  l_R : forall f q, In (f, q) R -> In (OMatch (q_id q) f) h;
  l_ndm : NoDup (flows_matched h);
  l_done : forall r f out, In (ORecvDone r f out) h -> In (OMatch r f) h;
  l_ndr : NoDup (recvs_done h);
  l_recv : forall r b d n dst, In (ORecv r b d n dst) h ->
    (exists q, (In q posted \/ In q (map snd R)) /\ q_id q = r) \/ exists f out, In (ORecvDone r f out) h;
  l_sub : forall it, In it its -> (getter it = true \/ waiting it = true) -> main it = true }.

Lemma linv_perm : forall h its its' posted posted' Sd R fl rq, Permutation its its' -> Permutation posted posted' ->
  linv h its posted Sd R fl rq -> linv h its' posted' Sd R fl rq.
Proof.
  intros h its its' posted posted' Sd R fl rq P Q L.
  assert (PI : forall x, In x its' -> In x its) by (intros x; apply Permutation_in, Permutation_sym, P).
  assert (QI : forall x, In x posted' -> In x posted) by (intros x; apply Permutation_in, Permutation_sym, Q).
  assert (QI' : forall x, In x posted -> In x posted') by (intros x; apply Permutation_in, Q).
  destruct L. constructor; auto.
  - eapply Permutation_NoDup; [apply ids_perm, P|assumption].
  - eapply Permutation_trans; [apply ids_perm, Permutation_sym, P|assumption].
  - eapply Permutation_trans; [apply ids_perm, Permutation_sym, P|assumption].
  - eapply Permutation_NoDup; [apply Permutation_app_tail, Permutation_map, Q|assumption].
  - intros q [I|I]; auto.
  - intros q [I|I]; auto.
  - intros r b d n dst I. destruct (l_recv0 _ _ _ _ _ I) as [(q & [J|J] & E)|J]; auto; left; exists q; auto.
Qed.

Lemma done_in : forall h f, In f (sends_done h) <-> In (OSendDone f) h.
Proof.
  intros h f. unfold sends_done. rewrite in_flat_map. split.
  - intros (e & I & K). destruct e; try contradiction; destruct K as [<-|[]]; exact I.
  - intros I. exists (OSendDone f). split; [exact I|now left].
Qed.
Lemma rdone_in : forall h r, In r (recvs_done h) <-> exists f out, In (ORecvDone r f out) h.
Proof.
  intros h r. unfold recvs_done. rewrite in_flat_map. split.
  - intros (e & I & K). destruct e; try contradiction; destruct K as [<-|[]]; eauto.
  - intros (f & out & I). exists (ORecvDone r f out). split; [exact I|now left].
Qed.
Lemma matched_in : forall h f, In f (flows_matched h) <-> exists r, In (OMatch r f) h.
Proof.
  intros h f. unfold flows_matched. rewrite in_flat_map. split.
  - intros (e & I & K). destruct e; try contradiction; destruct K as [<-|[]]; eauto.
  - intros (r & I). exists (OMatch r f). split; [exact I|now left].
Qed.

Definition same_kind (old its : list item) : Prop :=
  ids main its = ids main old /\ ids carrier its = ids carrier old /\ ids getter its = ids getter old /\
  (forall x, In x its -> exists y, In y old /\ fid x = fid y /\ (waiting x = true -> waiting y = true)) /\
  (forall x, In x its -> getter x = true \/ waiting x = true -> main x = true).

(* Messages change, nothing else *)
Lemma linv_same : forall h old its rest posted Sd R fl rq, linv h (old ++ rest) posted Sd R fl rq ->
  same_kind old its -> linv h (its ++ rest) posted Sd R fl rq.
Proof.
  intros h old its rest posted Sd R fl rq L (K1 & K2 & K3 & K4 & K5). destruct L. constructor; auto.
  - intros it I. apply in_app_or in I. destruct I as [I|I]; [|apply l_item0, in_or_app; auto].
    destruct (K4 it I) as (y & Y & -> & _). apply l_item0, in_or_app. auto.
  - now rewrite ids_app, K1, <- ids_app.
  - now rewrite ids_app, K2, <- ids_app.
  - now rewrite ids_app, K3, <- ids_app.
  - intros it I W. apply in_app_or in I. destruct I as [I|I]; [|apply l_wait0; auto; apply in_or_app; auto].
    destruct (K4 it I) as (y & Y & -> & WW). apply l_wait0; auto. apply in_or_app. auto.
  - intros it I. apply in_app_or in I. destruct I as [I|I]; [auto|apply l_sub0, in_or_app; auto].
Qed.

(* A send completes *)
Lemma filter_perm : forall A (P : A -> bool) a b, Permutation a b -> Permutation (filter P a) (filter P b).
Proof.
  intros A P a b H. induction H; cbn [filter].
  - constructor.
  - destruct (P x); [now constructor|assumption].
  - destruct (P x), (P y); try apply Permutation_refl. apply perm_swap.
  - eapply Permutation_trans; eauto.
Qed.
Lemma filter_out : forall x l, ~ In x l -> filter (fun f => negb (Nat.eqb f x)) l = l.
Proof.
  intros x. induction l as [|y l IH]; intros N; [reflexivity|]. cbn [filter].
  destruct (Nat.eqb_spec y x) as [->|]; cbn [negb]; [exfalso; apply N; now left|].
  f_equal. apply IH. intros K. apply N. now right.
Qed.
Lemma in_filter_ne : forall x y l, In y (filter (fun f => negb (Nat.eqb f x)) l) <-> In y l /\ y <> x.
Proof. intros x y l. rewrite filter_In. destruct (Nat.eqb_spec y x); cbn; intuition congruence. Qed.

Lemma linv_sent : forall h it rest posted Sd R fl rq, linv h (it :: rest) posted Sd R fl rq ->
  carrier it = true -> getter it = false -> (exists b d n src, In (OSend (fid it) b d n src) h) ->
  linv (OSendDone (fid it) :: h) rest posted (filter (fun f => negb (Nat.eqb f (fid it))) Sd) R fl rq.
Proof.
  intros h it rest posted Sd R fl rq L CA GE SX. destruct L.
  rewrite ids_cons, CA in l_carry0. cbn [app] in l_carry0. rewrite ids_cons, GE in l_get0. cbn [app] in l_get0.
  assert (FS : In (fid it) Sd) by (eapply Permutation_in; [exact l_carry0|now left]).
  assert (ND : NoDup (fid it :: ids carrier rest)) by (eapply Permutation_NoDup; [apply Permutation_sym; exact l_carry0|assumption]).
  rewrite NoDup_cons_iff in ND. destruct ND as (N1 & N2).
  assert (NF : forall e, In e (OSendDone (fid it) :: h) -> e = OSendDone (fid it) \/ In e h) by (intros e [<-|I]; auto).
  constructor.
  - intros f b d n src [I|I]; [discriminate|eauto].
  - intros f b d n src b' d' n' src' [I|I] [J|J]; try discriminate; eauto.
  - intros f b d n src [I|I]; [discriminate|eauto].
  - intros f b d n src b' d' n' src' [I|I] [J|J]; try discriminate; eauto.
  - intros x I. apply l_item0. now right.
  - rewrite ids_cons in l_main0. apply NoDup_app_iff in l_main0. tauto.
  - apply filter_perm with (P := fun f => negb (Nat.eqb f (fid it))) in l_carry0. cbn [filter] in l_carry0.
    rewrite Nat.eqb_refl in l_carry0. cbn [negb] in l_carry0. rewrite filter_out in l_carry0 by assumption. exact l_carry0.
  - now apply NoDup_filter.
  - intros f F [I|I].
    + injection I as <-. apply in_filter_ne in F. tauto.
    + apply (l_open0 f); [|exact I]. apply in_filter_ne in F. tauto.
  - intros f [I|I]; [injection I as <-; apply l_item0; now left|auto].
  - intros f [I|I]; [injection I as <-; destruct SX as (b & d & n & src & SX); exists b, d, n, src; now right|].
    destruct (l_sdx0 f I) as (b9 & d9 & n9 & s9 & J); exists b9, d9, n9, s9; now right.
  - intros f b d n src [I|I]; [discriminate|]. destruct (Nat.eq_dec f (fid it)) as [->|N]; [right; now left|].
    destruct (l_sopen0 _ _ _ _ _ I); [left; apply in_filter_ne; auto|right; now right].
  - cbn [sends_done flat_map app]. constructor; [|exact l_nds0]. intros K. apply done_in in K. now apply (l_open0 (fid it)).
  - exact l_get0.
  - exact l_rids0.
  - intros q I. destruct (l_in0 q I) as (b & d & n & dst & J). exists b, d, n, dst. now right.
  - intros q I f out [J|J]; [discriminate|]. eapply l_ropen0; eauto.
  - intros q I f [J|J]; [discriminate|]. eapply l_pno0; eauto.
  - intros r f [I|I]; [discriminate|]. destruct (l_match0 _ _ I) as [(out & J)|J]; [left; exists out; now right|auto].
  - intros r f [I|I]; [discriminate|eauto].
  - intros x I W. apply l_wait0; [now right|exact W].
  - exact l_mlt0.
  - intros f q I. right. auto.
  - exact l_ndm0.
  - intros r f out [I|I]; [discriminate|]. right. eauto.
  - exact l_ndr0.
  - intros r b d n dst [I|I]; [discriminate|]. destruct (l_recv0 _ _ _ _ _ I) as [J|(f & out & J)]; [auto|].
    right. exists f, out. now right.
  - intros x I. apply l_sub0. now right.
Qed.

(* The request of a flow *)
Lemma find_recv_in : forall f q R, NoDup (map fst R) -> In (f, q) R -> find_recv f R = Some q.
Proof.
  intros f q R. induction R as [|(f', q') R IH]; intros ND I; [destruct I|]. cbn [map fst] in ND. apply NoDup_cons_iff in ND.
  unfold find_recv. cbn [find fst]. destruct (Nat.eqb_spec f' f) as [->|N].
  - destruct I as [I|I]; [cbn; congruence|]. destruct ND as (ND & _). exfalso. apply ND. now apply (in_map fst) in I.
  - destruct I as [I|I]; [congruence|]. now apply IH.
Qed.
Lemma drop_in : forall f x R, In x (drop_recv f R) <-> In x R /\ fst x <> f.
Proof. intros f x R. unfold drop_recv. rewrite filter_In. destruct (Nat.eqb_spec (fst x) f); cbn; intuition congruence. Qed.
Lemma drop_fst : forall f R, map fst (drop_recv f R) = filter (fun g => negb (Nat.eqb g f)) (map fst R).
Proof.
  intros f R. unfold drop_recv. induction R as [|e R IH]; [reflexivity|]. cbn [map filter].
  destruct (negb (Nat.eqb (fst e) f)); cbn [map]; now rewrite IH.
Qed.
Lemma drop_sub : forall f (g : nat * rreq -> nat) R, NoDup (map g R) -> NoDup (map g (drop_recv f R)).
Proof.
  intros f g R. unfold drop_recv. induction R as [|e R IH]; intros N; [constructor|]. cbn [map] in N. apply NoDup_cons_iff in N.
  cbn [filter]. destruct (negb (Nat.eqb (fst e) f)); [|tauto]. cbn [map]. constructor; [|tauto].
  intros K. apply (proj1 N). apply in_map_iff in K. destruct K as (y & E & K). apply filter_In in K.
  apply in_map_iff. exists y. tauto.
Qed.
Lemma map_drop_in : forall f q R, In q (map snd (drop_recv f R)) -> exists g, In (g, q) R /\ g <> f.
Proof.
  intros f q R I. apply in_map_iff in I. destruct I as ((g, q') & E & I). cbn in E. subst q'. apply drop_in in I. exists g. tauto.
Qed.

Lemma getters_nodup : forall h its posted Sd R fl rq, linv h its posted Sd R fl rq -> NoDup (map fst R).
Proof.
  intros h its posted Sd R fl rq L. eapply Permutation_NoDup; [apply (l_get _ _ _ _ _ _ _ L)|].
  pose proof (l_main _ _ _ _ _ _ _ L) as M. pose proof (l_sub _ _ _ _ _ _ _ L) as SU. clear L.
  unfold ids in *. induction its as [|x its IH]; [constructor|]. cbn [filter] in *.
  assert (IH' : NoDup (map fid (filter getter its))).
  { apply IH; [destruct (main x); [cbn [map] in M; apply NoDup_cons_iff in M; tauto|exact M]|]. intros y Y. apply SU. now right. }
  destruct (getter x) eqn:G; [|exact IH'].
  cbn [map]. constructor; [|exact IH']. rewrite (SU x) in M by (auto; now left). cbn [map] in M.
  apply NoDup_cons_iff in M. destruct M as (M & _). intros K. apply M. apply in_map_iff in K. destruct K as (y & E & K).
  apply filter_In in K. apply in_map_iff. exists y. split; [exact E|]. apply filter_In. split; [tauto|]. apply SU; [right; tauto|left; tauto].
Qed.

(* A matched receive completes *)
Lemma linv_rdone : forall h it its rest posted Sd R fl rq q out, linv h (it :: rest) posted Sd R fl rq ->
  getter it = true -> In (fid it, q) R -> ids carrier its = (if carrier it then [fid it] else []) ->
  (forall x, In x its -> fid x = fid it /\ getter x = false /\ waiting x = false) -> (length its <= 1)%nat ->
  linv (ORecvDone (q_id q) (fid it) out :: h) (its ++ rest) posted Sd (drop_recv (fid it) R) fl rq.
Proof.
  intros h it its rest posted Sd R fl rq q out L GE Q CA KI LE.
  pose proof (getters_nodup _ _ _ _ _ _ _ L) as GN. destruct L.
  rewrite ids_cons, GE in l_get0. cbn [app] in l_get0.
  assert (ND : NoDup (fid it :: ids getter rest)) by (eapply Permutation_NoDup; [apply Permutation_sym; exact l_get0|assumption]).
  rewrite NoDup_cons_iff in ND. destruct ND as (N1 & N2).
  assert (MA : main it = true) by (apply l_sub0; [now left|auto]).
  rewrite ids_cons, MA in l_main0. cbn [app] in l_main0. apply NoDup_cons_iff in l_main0. destruct l_main0 as (M1 & M2).
  assert (RO : forall f out, ~ In (ORecvDone (q_id q) f out) h) by (apply l_ropen0; right; now apply (in_map snd) in Q).
  assert (DQ : forall f' q', In (f', q') R -> f' <> fid it -> q_id q' <> q_id q).
  { intros f' q' I N E. apply NoDup_app_iff in l_rids0. destruct l_rids0 as (_ & NR & _).
    apply (in_split) in I. destruct I as (l1 & l2 & ->). rewrite map_app in NR. cbn [map snd] in NR.
    apply NoDup_remove in NR. destruct NR as (_ & NR). apply NR.
    assert (In (fid it, q) (l1 ++ l2)). { apply in_app_or in Q. destruct Q as [Q|[Q|Q]]; [apply in_or_app; auto|congruence|apply in_or_app; auto]. }
    rewrite <- map_app. rewrite E. apply (in_map (fun e => q_id (snd e))) in H. exact H. }
  constructor.
  - intros f b d n src [I|I]; [discriminate|eauto].
  - intros f b d n src b' d' n' src' [I|I] [J|J]; try discriminate; eauto.
  - intros f b d n src [I|I]; [discriminate|eauto].
  - intros f b d n src b' d' n' src' [I|I] [J|J]; try discriminate; eauto.
  - intros x I. apply in_app_or in I. destruct I as [I|I]; [destruct (KI x I) as (-> & _); apply l_item0; now left|apply l_item0; now right].
  - rewrite ids_app. destruct its as [|x [|]]; [exact M2| |cbn in LE; lia].
    rewrite ids_cons. destruct (main x); [|exact M2]. destruct (KI x) as (-> & _); [now left|]. cbn. now constructor.
  - rewrite ids_app, CA. rewrite ids_cons in l_carry0. exact l_carry0.
  - exact l_snd0.
  - intros f F [I|I]; [discriminate|]. eapply l_open0; eauto.
  - intros f [I|I]; [discriminate|auto].
  - intros f [I|I]; [discriminate|]. destruct (l_sdx0 f I) as (b9 & d9 & n9 & s9 & J); exists b9, d9, n9, s9; now right.
  - intros f b d n src [I|I]; [discriminate|]. destruct (l_sopen0 _ _ _ _ _ I); [auto|right; now right].
  - exact l_nds0.
  - rewrite ids_app, drop_fst.
    replace (ids getter its) with (@nil nat).
    2: { unfold ids. replace (filter getter its) with (@nil item); [reflexivity|]. destruct its as [|x [|]]; [reflexivity| |cbn in LE; lia].
         cbn [filter]. destruct (KI x) as (_ & -> & _); [now left|reflexivity]. }
    apply filter_perm with (P := fun f => negb (Nat.eqb f (fid it))) in l_get0. cbn [filter] in l_get0.
    rewrite Nat.eqb_refl in l_get0. cbn [negb] in l_get0. rewrite filter_out in l_get0 by assumption. exact l_get0.
  - apply NoDup_app_iff in l_rids0. destruct l_rids0 as (A & B & C). apply NoDup_app_iff. split; [exact A|].
    split; [now apply drop_sub|]. intros x X Y. apply (C x X). apply in_map_iff in Y. destruct Y as (y & E & Y).
    apply drop_in in Y. apply in_map_iff. exists y. tauto.
  - intros q' I. destruct (l_in0 q') as (b & d & n & dst & J).
    { destruct I as [I|I]; [auto|]. right. apply map_drop_in in I. destruct I as (g & I & _). now apply (in_map snd) in I. }
    exists b, d, n, dst. now right.
  - intros q' I f out' [J|J].
    + injection J as E1 E2 _. destruct I as [I|I].
      * apply NoDup_app_iff in l_rids0. destruct l_rids0 as (_ & _ & C). apply (C (q_id q')); [now apply in_map|].
        rewrite <- E1. apply (in_map (fun e => q_id (snd e))) in Q. exact Q.
      * apply map_drop_in in I. destruct I as (g & I & NG). apply (DQ g q' I NG). now symmetry.
    + destruct I as [I|I]; [eapply l_ropen0; eauto|]. apply map_drop_in in I. destruct I as (g & I & NG).
      eapply l_ropen0; [right; apply (in_map snd) in I; exact I|exact J].
  - intros q' I f [J|J]; [discriminate|]. eapply l_pno0; eauto.
  - intros r f [I|I]; [discriminate|]. destruct (l_match0 _ _ I) as [(o & J)|(q' & J & E)]; [left; exists o; now right|].
    destruct (Nat.eq_dec f (fid it)) as [->|N].
    + left. exists out. left. f_equal. rewrite <- E. apply (find_recv_in _ _ _ GN) in J. apply (find_recv_in _ _ _ GN) in Q. congruence.
    + right. exists q'. split; [|exact E]. apply drop_in. auto.
  - intros r f [I|I]; [discriminate|eauto].
  - intros x I W. apply in_app_or in I. destruct I as [I|I]; [destruct (KI x I) as (_ & _ & K); congruence|].
    apply l_wait0; [now right|exact W].
  - exact l_mlt0.
  - intros f q' I. right. apply drop_in in I. apply l_R0. tauto.
  - exact l_ndm0.
  - intros r f o [I|I]; [injection I as <- <- _|]; right; eauto.
  - cbn [recvs_done flat_map app]. constructor; [|exact l_ndr0]. intros K. apply rdone_in in K. destruct K as (f & o & K). eapply RO; eauto.
  - intros r b d n dst [I|I]; [discriminate|]. destruct (l_recv0 _ _ _ _ _ I) as [(q' & [J|J] & E)|(f & o & J)].
    + left. exists q'. auto.
    + apply in_map_iff in J. destruct J as ((f', q'') & EE & J). cbn in EE. subst q''.
      destruct (Nat.eq_dec f' (fid it)) as [->|N].
      * right. exists (fid it), out. left. f_equal. rewrite <- E. apply (find_recv_in _ _ _ GN) in J. apply (find_recv_in _ _ _ GN) in Q. congruence.
      * left. exists q'. split; [|exact E]. right. apply in_map_iff. exists (f', q'). split; [reflexivity|]. apply drop_in. auto.
    + right. exists f, o. now right.
  - intros x I. apply in_app_or in I. destruct I as [I|I]; [|apply l_sub0; now right].
    destruct (KI x I) as (_ & A & B). rewrite A, B. intuition discriminate.
Qed.

(* A rendezvous message is matched *)
Lemma linv_match : forall h it it' rest q posted Sd R fl rq, linv h (it :: rest) (q :: posted) Sd R fl rq ->
  waiting it = true -> getter it = false -> carrier it = true ->
  fid it' = fid it -> main it' = true -> carrier it' = true -> getter it' = true -> waiting it' = false ->
  linv (OMatch (q_id q) (fid it) :: h) (it' :: rest) posted Sd ((fid it, q) :: R) fl rq.
Proof.
  intros h it it' rest q posted Sd R fl rq L W G CA E M' C' G' W'. destruct L.
  assert (MA : main it = true) by (apply l_sub0; [now left|auto]).
  rewrite ids_cons, MA in l_main0. cbn [app] in l_main0. apply NoDup_cons_iff in l_main0. destruct l_main0 as (M1 & M2).
  assert (RQ : (q_id q < rq)%nat) by (destruct (l_in0 q) as (b & d & n & dst & J); [left; now left|eauto]).
  constructor.
  - intros f b d n src [I|I]; [discriminate|eauto].
  - intros f b d n src b' d' n' src' [I|I] [J|J]; try discriminate; eauto.
  - intros f b d n src [I|I]; [discriminate|eauto].
  - intros f b d n src b' d' n' src' [I|I] [J|J]; try discriminate; eauto.
  - intros x [<-|I]; [rewrite E; apply l_item0; now left|apply l_item0; now right].
  - rewrite ids_cons, M', E. cbn. now constructor.
  - rewrite ids_cons in *. rewrite C', E. now rewrite CA in l_carry0.
  - exact l_snd0.
  - intros f F [I|I]; [discriminate|]. eapply l_open0; eauto.
  - intros f [I|I]; [discriminate|auto].
  - intros f [I|I]; [discriminate|]. destruct (l_sdx0 f I) as (b9 & d9 & n9 & s9 & J); exists b9, d9, n9, s9; now right.
  - intros f b d n src [I|I]; [discriminate|]. destruct (l_sopen0 _ _ _ _ _ I); [auto|right; now right].
  - exact l_nds0.
  - rewrite ids_cons in *. rewrite G', E. rewrite G in l_get0. cbn [app map fst] in *. now constructor.
  - cbn [map snd] in *. eapply Permutation_NoDup; [|exact l_rids0]. cbn [app]. apply Permutation_middle.
  - intros q' I. destruct (l_in0 q') as (b & d & n & dst & J); [|exists b, d, n, dst; now right].
    destruct I as [I|[<-|I]]; [left; now right|left; now left|auto].
  - intros q' I f out [J|J]; [discriminate|]. eapply l_ropen0; [|exact J].
    destruct I as [I|[<-|I]]; [left; now right|left; now left|auto].
  - intros q' I f [J|J].
    + injection J as J _. cbn [map app] in l_rids0. apply NoDup_cons_iff in l_rids0. destruct l_rids0 as (N & _).
      apply N. rewrite J. apply in_or_app. left. now apply in_map.
    + eapply l_pno0; [right; exact I|exact J].
  - intros r f [I|I].
    + injection I as <- <-. right. exists q. split; [now left|reflexivity].
    + destruct (l_match0 _ _ I) as [(o & J)|(q' & J & EE)]; [left; exists o; now right|right; exists q'; split; [now right|exact EE]].
  - intros r f [I|I]; [injection I as <- _; exact RQ|eauto].
  - intros x [<-|I] WW; [congruence|]. intros K. cbn [flows_matched flat_map app] in K. destruct K as [K|K].
    + apply M1. rewrite K. apply ids_in. exists x. split; [exact I|]. split; [|reflexivity]. apply l_sub0; [now right|auto].
    + eapply l_wait0; [right; exact I|exact WW|exact K].
  - intros f K. cbn [flows_matched flat_map app] in K. destruct K as [<-|K]; [apply l_item0; now left|auto].
  - intros f q' [I|I]; [injection I as <- <-; now left|right; auto].
  - cbn [flows_matched flat_map app]. constructor; [|exact l_ndm0]. apply l_wait0; [now left|exact W].
  - intros r f o [I|I]; [discriminate|]. right. eauto.
  - exact l_ndr0.
  - intros r b d n dst [I|I]; [discriminate|]. destruct (l_recv0 _ _ _ _ _ I) as [(q' & [[<-|J]|J] & EE)|(f & o & J)].
    + left. exists q. split; [right; now left|exact EE].
    + left. exists q'. auto.
    + left. exists q'. split; [right; now right|exact EE].
    + right. exists f, o. now right.
  - intros x [<-|I]; [now intros _|apply l_sub0; now right].
Qed.

(* An eager message is matched *)
Lemma linv_eager : forall h it rest q posted Sd R fl rq out, linv h (it :: rest) (q :: posted) Sd R fl rq ->
  waiting it = true -> getter it = false -> carrier it = false ->
  linv (ORecvDone (q_id q) (fid it) out :: OMatch (q_id q) (fid it) :: h) rest posted Sd R fl rq.
Proof.
  intros h it rest q posted Sd R fl rq out L W G CA. destruct L.
  assert (MA : main it = true) by (apply l_sub0; [now left|auto]).
  rewrite ids_cons, MA in l_main0. cbn [app] in l_main0. apply NoDup_cons_iff in l_main0. destruct l_main0 as (M1 & M2).
  cbn [map app] in l_rids0. apply NoDup_cons_iff in l_rids0. destruct l_rids0 as (N1 & N2).
  assert (RQ : (q_id q < rq)%nat) by (destruct (l_in0 q) as (b & d & n & dst & J); [left; now left|eauto]).
  constructor.
  - intros f b d n src [I|[I|I]]; try discriminate; eauto.
  - intros f b d n src b' d' n' src' [I|[I|I]] [J|[J|J]]; try discriminate; eauto.
  - intros f b d n src [I|[I|I]]; try discriminate; eauto.
  - intros f b d n src b' d' n' src' [I|[I|I]] [J|[J|J]]; try discriminate; eauto.
  - intros x I. apply l_item0. now right.
  - exact M2.
  - rewrite ids_cons, CA in l_carry0. exact l_carry0.
  - exact l_snd0.
  - intros f F [I|[I|I]]; try discriminate. eapply l_open0; eauto.
  - intros f [I|[I|I]]; try discriminate; auto.
  - intros f [I|[I|I]]; try discriminate. destruct (l_sdx0 f I) as (b9 & d9 & n9 & s9 & J); exists b9, d9, n9, s9; right; now right.
  - intros f b d n src [I|[I|I]]; try discriminate. destruct (l_sopen0 _ _ _ _ _ I); [auto|right; right; now right].
  - exact l_nds0.
  - rewrite ids_cons, G in l_get0. exact l_get0.
  - exact N2.
  - intros q' I. destruct (l_in0 q') as (b & d & n & dst & J); [|exists b, d, n, dst; right; now right].
    destruct I as [I|I]; [left; now right|auto].
  - intros q' I f o [J|[J|J]]; try discriminate.
    + injection J as J _ _. apply N1. rewrite J. apply in_or_app. destruct I as [I|I]; [left; now apply in_map|right].
      apply in_map_iff in I. destruct I as (e & <- & I). now apply (in_map (fun e => q_id (snd e))) in I.
    + eapply l_ropen0; [|exact J]. destruct I as [I|I]; [left; now right|auto].
  - intros q' I f [J|[J|J]]; try discriminate.
    + injection J as J _. apply N1. rewrite J. apply in_or_app. left. now apply in_map.
    + eapply l_pno0; [right; exact I|exact J].
  - intros r f [I|[I|I]]; try discriminate.
    + injection I as <- <-. left. exists out. now left.
    + destruct (l_match0 _ _ I) as [(o & J)|(q' & J & EE)]; [left; exists o; right; now right|right; eauto].
  - intros r f [I|[I|I]]; try discriminate; [injection I as <- _; exact RQ|eauto].
  - intros x I WW. intros K. cbn [flows_matched flat_map app] in K. destruct K as [K|K].
    + apply M1. rewrite K. apply ids_in. exists x. split; [exact I|]. split; [|reflexivity]. apply l_sub0; [now right|auto].
    + eapply l_wait0; [right; exact I|exact WW|exact K].
  - intros f K. cbn [flows_matched flat_map app] in K. destruct K as [<-|K]; [apply l_item0; now left|auto].
  - intros f q' I. right. right. auto.
  - cbn [flows_matched flat_map app]. constructor; [|exact l_ndm0]. apply l_wait0; [now left|exact W].
  - intros r f o [I|[I|I]]; try discriminate; [injection I as <- <- _; right; now left|]. right. right. eauto.
  - cbn [recvs_done flat_map app]. constructor; [|exact l_ndr0]. intros K. apply rdone_in in K. destruct K as (f & o & K).
    eapply l_ropen0; [left; now left|exact K].
  - intros r b d n dst [I|[I|I]]; try discriminate. destruct (l_recv0 _ _ _ _ _ I) as [(q' & [[<-|J]|J] & EE)|(f & o & J)].
    + right. exists (fid it), out. left. now rewrite EE.
    + left. exists q'. auto.
    + left. exists q'. auto.
    + right. exists f, o. right. now right.
  - intros x I. apply l_sub0. now right.
Qed.

(* A new receive *)
Lemma linv_post : forall h its posted Sd R fl rq b d n dst q, linv h its posted Sd R fl rq -> q_id q = rq ->
  linv (ORecv rq b d n dst :: h) its (posted ++ [q]) Sd R fl (S rq).
Proof.
  intros h its posted Sd R fl rq b d n dst q L E. destruct L.
  assert (NR : forall x, In x (map q_id posted ++ map (fun e => q_id (snd e)) R) -> (x < rq)%nat).
  { intros x X. assert (Y : exists q', (In q' posted \/ In q' (map snd R)) /\ q_id q' = x).
    { apply in_app_or in X. destruct X as [X|X]; apply in_map_iff in X; destruct X as (y & EE & X).
      - exists y. auto.
      - exists (snd y). split; [right; now apply in_map|exact EE]. }
    destruct Y as (q' & Y & <-). destruct (l_in0 _ Y) as (b' & d' & n' & dst' & J). eauto. }
  constructor.
  - intros f b' d' n' src [I|I]; [discriminate|eauto].
  - intros f b1 d1 n1 src b2 d2 n2 src' [I|I] [J|J]; try discriminate; eauto.
  - intros r b' d' n' dst' [I|I]; [injection I as <- _ _ _ _; lia|]. apply l_rq0 in I. lia.
  - intros r b1 d1 n1 dst1 b2 d2 n2 dst2 [I|I] [J|J]; try (eapply l_rq2; eassumption).
    + injection I as -> <- <- <- <-. injection J as <- <- <- <-. auto.
    + injection I as <- _ _ _ _. apply l_rq0 in J. lia.
    + injection J as <- _ _ _ _. apply l_rq0 in I. lia.
  - exact l_item0.
  - exact l_main0.
  - exact l_carry0.
  - exact l_snd0.
  - intros f F [I|I]; [discriminate|]. eapply l_open0; eauto.
  - intros f [I|I]; [discriminate|auto].
  - intros f [I|I]; [discriminate|]. destruct (l_sdx0 f I) as (b9 & d9 & n9 & s9 & J); exists b9, d9, n9, s9; now right.
  - intros f b' d' n' src [I|I]; [discriminate|]. destruct (l_sopen0 _ _ _ _ _ I); [auto|right; now right].
  - exact l_nds0.
  - exact l_get0.
  - rewrite map_app. cbn [map]. rewrite <- app_assoc. cbn [app].
    eapply Permutation_NoDup; [apply Permutation_middle|]. constructor; [|exact l_rids0].
    intros K. apply NR in K. lia.
  - intros q' I. assert (J : q' = q \/ In q' posted \/ In q' (map snd R)).
    { destruct I as [I|I]; [|auto]. apply in_app_or in I. destruct I as [I|[I|[]]]; auto. }
    destruct J as [->|J].
    + exists b, d, n, dst. left. now rewrite E.
    + destruct (l_in0 q' J) as (b' & d' & n' & dst' & K). exists b', d', n', dst'. now right.
  - intros q' I f out [J|J]; [discriminate|]. destruct I as [I|I]; [|eapply l_ropen0; eauto].
    apply in_app_or in I. destruct I as [I|[<-|[]]]; [eapply l_ropen0; eauto|]. apply l_done0, l_mr0 in J. lia.
  - intros q' I f [J|J]; [discriminate|]. apply in_app_or in I. destruct I as [I|[<-|[]]]; [eapply l_pno0; eauto|].
    apply l_mr0 in J. lia.
  - intros r f [I|I]; [discriminate|]. destruct (l_match0 _ _ I) as [(o & J)|J]; [left; exists o; now right|auto].
  - intros r f [I|I]; [discriminate|]. apply l_mr0 in I. lia.
  - exact l_wait0.
  - exact l_mlt0.
  - intros f q' I. right. auto.
  - exact l_ndm0.
  - intros r f o [I|I]; [discriminate|]. right. eauto.
  - exact l_ndr0.
  - intros r b' d' n' dst' [I|I].
    + injection I as <- _ _ _ _. left. exists q. split; [left; apply in_or_app; right; now left|exact E].
    + destruct (l_recv0 _ _ _ _ _ I) as [(q' & [J|J] & EE)|(f & o & J)].
      * left. exists q'. split; [left; apply in_or_app; now left|exact EE].
      * left. exists q'. auto.
      * right. exists f, o. now right.
  - exact l_sub0.
Qed.

Lemma linv_write : forall h its posted Sd R fl rq b x v, linv h its posted Sd R fl rq ->
  linv (OWrite b x v :: h) its posted Sd R fl rq.
Proof.
  intros h its posted Sd R fl rq b0 x0 v L. destruct L. constructor; auto.
  - intros f b d n src [I|I]; [discriminate|eauto].
  - intros f b d n src b' d' n' src' [I|I] [J|J]; try discriminate; eauto.
  - intros f b d n src [I|I]; [discriminate|eauto].
  - intros f b d n src b' d' n' src' [I|I] [J|J]; try discriminate; eauto.
  - intros f F [I|I]; [discriminate|]. eapply l_open0; eauto.
  - intros f [I|I]; [discriminate|auto].
  - intros f [I|I]; [discriminate|]. destruct (l_sdx0 f I) as (b9 & d9 & n9 & s9 & J); exists b9, d9, n9, s9; now right.
  - intros f b d n src [I|I]; [discriminate|]. destruct (l_sopen0 _ _ _ _ _ I); [auto|right; now right].
  - intros q I. destruct (l_in0 q I) as (b & d & n & dst & J). exists b, d, n, dst. now right.
  - intros q I f out [J|J]; [discriminate|]. eapply l_ropen0; eauto.
  - intros q I f [J|J]; [discriminate|]. eapply l_pno0; eauto.
  - intros r f [I|I]; [discriminate|]. destruct (l_match0 _ _ I) as [(out & J)|J]; [left; exists out; now right|auto].
  - intros r f [I|I]; [discriminate|eauto].
  - intros f q I. right. auto.
  - intros r f out [I|I]; [discriminate|]. right. eauto.
  - intros r b d n dst [I|I]; [discriminate|]. destruct (l_recv0 _ _ _ _ _ I) as [J|(f & out & J)]; [auto|].
    right. exists f, out. now right.
Qed.

(* A new send: [o] is the call and, if eager, the completion *)
Lemma linv_send : forall h its new posted Sd Sd' R fl rq o b d n src (rdv : bool), linv h its posted Sd R fl rq ->
  o = (if rdv then [OSend fl b d n src] else [OSendDone fl; OSend fl b d n src]) ->
  Sd' = (if rdv then fl :: Sd else Sd) ->
  ids main new = [fl] -> ids carrier new = (if rdv then [fl] else []) -> ids getter new = [] ->
  (forall x, In x new -> fid x = fl /\ (waiting x = true -> main x = true)) ->
  linv (o ++ h) (new ++ its) posted Sd' R (S fl) rq.
Proof.
  intros h its new posted Sd Sd' R fl rq o b d n src rdv L EO ES MN CN GN NW. destruct L.
  assert (OI : forall e, In e (o ++ h) <-> In e o \/ In e h) by (intros; apply in_app_iff).
  assert (OC : forall e, In e o <-> e = OSend fl b d n src \/ (rdv = false /\ e = OSendDone fl)).
  { intros e. subst o. destruct rdv; cbn; intuition congruence. }
  assert (SF : ~ In fl Sd).
  { intros K. apply (Permutation_in _ (Permutation_sym l_carry0)) in K. apply ids_in in K. destruct K as (it & I & _ & E).
    apply l_item0 in I. lia. }
  assert (FM : flows_matched (o ++ h) = flows_matched h) by (subst o; destruct rdv; reflexivity).
  assert (FR : recvs_done (o ++ h) = recvs_done h) by (subst o; destruct rdv; reflexivity).
  assert (OH : forall e, In e h -> In e (o ++ h)) by (intros; apply in_or_app; now right).
  constructor; rewrite ?FM, ?FR; auto.
  - intros f b' d' n' src' I. apply OI in I. rewrite OC in I. destruct I as [[I|(_ & I)]|I]; try discriminate.
    + injection I as -> _ _ _ _. lia.
    + apply l_fl0 in I. lia.
  - intros f b1 d1 n1 src1 b2 d2 n2 src2 I J. apply OI in I. apply OI in J. rewrite OC in I, J.
    destruct I as [[I|(_ & I)]|I], J as [[J|(_ & J)]|J]; try discriminate; try (eapply l_fl2; eassumption).
    + injection I as -> -> -> -> ->. injection J as -> -> -> ->. auto.
    + injection I as -> _ _ _ _. apply l_fl0 in J. lia.
    + injection J as -> _ _ _ _. apply l_fl0 in I. lia.
  - intros f b' d' n' src' I. apply OI in I. rewrite OC in I. destruct I as [[I|(_ & I)]|I]; try discriminate. eauto.
  - intros f b1 d1 n1 src1 b2 d2 n2 src2 I J. apply OI in I. apply OI in J. rewrite OC in I, J.
    destruct I as [[I|(_ & I)]|I], J as [[J|(_ & J)]|J]; try discriminate; try (eapply l_rq2; eassumption).
  - intros x I. apply in_app_or in I. destruct I as [I|I]; [destruct (NW x I); lia|apply l_item0 in I; lia].
  - rewrite ids_app, MN. cbn. constructor; [|exact l_main0]. intros K. apply ids_in in K. destruct K as (it & I & _ & E).
    apply l_item0 in I. lia.
  - rewrite ids_app, CN. subst Sd'. destruct rdv; cbn; auto.
  - subst Sd'. destruct rdv; [now constructor|assumption].
  - intros f F I. apply OI in I. rewrite OC in I. subst Sd'. destruct I as [[I|(RV & I)]|I]; try discriminate.
    + subst rdv. injection I as ->. contradiction.
    + destruct rdv; [|eapply l_open0; eauto]. destruct F as [<-|F]; [|eapply l_open0; eauto]. apply l_sd0 in I. lia.
  - intros f I. apply OI in I. rewrite OC in I. destruct I as [[I|(RV & I)]|I]; try discriminate; [injection I as ->; lia|].
    apply l_sd0 in I. lia.
  - intros f I. apply OI in I. rewrite OC in I. destruct I as [[I|(RV & I)]|I]; try discriminate.
    + injection I as ->. exists b, d, n, src. apply OI. left. apply OC. now left.
    + destruct (l_sdx0 f I) as (b9 & d9 & n9 & s9 & J); exists b9, d9, n9, s9; apply OI; now right.
  - intros f b' d' n' src' I. apply OI in I. rewrite OC in I. destruct I as [[I|(_ & I)]|I]; try discriminate.
    + injection I as -> _ _ _ _. subst o Sd'. destruct rdv; [left|right]; now left.
    + destruct (l_sopen0 _ _ _ _ _ I); [left|right; auto]. subst Sd'. destruct rdv; [now right|assumption].
  - subst o. destruct rdv; [exact l_nds0|]. cbn. constructor; [|exact l_nds0]. intros K. apply done_in, l_sd0 in K. lia.
  - rewrite ids_app, GN. exact l_get0.
  - intros q I. destruct (l_in0 q I) as (b' & d' & n' & dst' & J). exists b', d', n', dst'. auto.
  - intros q I f out J. apply OI in J. rewrite OC in J. destruct J as [[J|(_ & J)]|J]; try discriminate. eapply l_ropen0; eauto.
  - intros q I f J. apply OI in J. rewrite OC in J. destruct J as [[J|(_ & J)]|J]; try discriminate. eapply l_pno0; eauto.
  - intros r f I. apply OI in I. rewrite OC in I. destruct I as [[I|(_ & I)]|I]; try discriminate.
    destruct (l_match0 _ _ I) as [(out & J)|J]; [left; exists out; auto|auto].
  - intros r f I. apply OI in I. rewrite OC in I. destruct I as [[I|(_ & I)]|I]; try discriminate. eauto.
  - intros x I W. apply in_app_or in I. destruct I as [I|I]; [|auto]. destruct (NW x I) as (-> & _). intros K. apply l_mlt0 in K. lia.
  - intros f K. apply l_mlt0 in K. lia.
  - intros r f out I. apply OI in I. rewrite OC in I. destruct I as [[I|(_ & I)]|I]; try discriminate. eauto.
  - intros r b' d' n' dst I. apply OI in I. rewrite OC in I. destruct I as [[I|(_ & I)]|I]; try discriminate.
    destruct (l_recv0 _ _ _ _ _ I) as [J|(f & out & J)]; [auto|]. right. exists f, out. auto.
  - intros x I. apply in_app_or in I. destruct I as [I|I]; [|auto]. intros [K|K]; [|now apply NW].
    exfalso. assert (Z : In (fid x) (ids getter new)) by (apply ids_in; eauto). rewrite GN in Z. destruct Z.
Qed.
End Inv.
