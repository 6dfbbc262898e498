(** C32, C33, C80: ordering, matching and probing of MPI messages. *)
From Coq Require Import List Arith ZArith Bool Lia Permutation.
From Verif Require Import MqModel MqProof.
Import ListNotations.

(** The messages a rank [s] running the sends [prog] puts on the wire for task
    [d], in program order. *)
Definition sent_to (vshort eager : N) (s d : nat) (prog : list send) : list msg :=
  map snd (filter (fun x => fst x =? d) (send_all vshort eager s (fun _ => 0) prog)).

Definition from (s : nat) (l : list msg) : list msg := filter (fun m => ms_src m =? s) l.

Lemma send_all_to : forall v e s d prog out,
  let l := map snd (filter (fun x => fst x =? d) (send_all v e s out prog)) in
  let p := filter (fun x => sd_dst x =? d) prog in
  map ms_seq l = seq (out d) (length p) /\ map ms_data l = map sd_data p
  /\ map ms_tag l = map sd_tag p /\ map ms_comm l = map sd_comm p
  /\ (forall m, In m l -> ms_src m = s).
Proof.
  induction prog as [|x t IH]; intros out; cbn [send_all filter map fst].
  - cbn. repeat split; auto. intros m [].
  - destruct (IH (upd out (sd_dst x) (S (out (sd_dst x))))) as (A & B & C & D & E).
    destruct (Nat.eqb_spec (sd_dst x) d) as [<-|N].
    + cbn [map snd length seq ms_seq ms_data ms_tag ms_comm].
      rewrite upd_same in A. rewrite A, B, C, D. repeat split; auto.
      intros m [<- | Hm]; auto.
    + rewrite upd_other in A by auto. rewrite A, B, C, D. repeat split; auto.
Qed.

(** What is put on the wire for [d] carries the program's data in program order. *)
Theorem sent_to_program : forall v e s d prog,
  map ms_data (sent_to v e s d prog) = map sd_data (filter (fun x => sd_dst x =? d) prog)
  /\ map ms_tag (sent_to v e s d prog) = map sd_tag (filter (fun x => sd_dst x =? d) prog)
  /\ map ms_comm (sent_to v e s d prog) = map sd_comm (filter (fun x => sd_dst x =? d) prog).
Proof.
  intros. destruct (send_all_to v e s d prog (fun _ => 0)) as (A & B & C & D & E). auto.
Qed.
Print Assumptions sent_to_program.

Lemma nodup_keys : forall l, (forall s, NoDup (map ms_seq (from s l))) -> NoDup (map key l).
Proof.
  induction l as [|m t IH]; intros H; cbn [map]; constructor.
  - intros K. apply in_map_iff in K. destruct K as (x & E & K).
    specialize (H (ms_src m)). cbn [from filter] in H. unfold from in H. cbn [filter] in H.
    rewrite Nat.eqb_refl in H. cbn [map] in H. inversion H as [|? ? N1 N2]; subst. apply N1.
    unfold key in E. injection E as E1 E2. rewrite <- E2. apply in_map.
    apply filter_In. split; auto. apply Nat.eqb_eq. auto.
  - apply IH. intros s. specialize (H s). unfold from in H. cbn [filter] in H.
    destruct (ms_src m =? s); auto. now inversion H.
Qed.

Lemma nth_of_seq : forall (l : list msg) b m,
  map ms_seq l = seq b (length l) -> In m l -> nth_error l (ms_seq m - b) = Some m /\ b <= ms_seq m.
Proof.
  induction l as [|h t IH]; intros b m E H; [destruct H|].
  cbn [map length seq] in E. injection E as E1 E2.
  destruct H as [<- | H].
  - rewrite E1, Nat.sub_diag. auto.
  - destruct (IH _ _ E2 H) as (A & B). split; [|lia].
    replace (ms_seq m - b) with (S (ms_seq m - S b)) by lia. exact A.
Qed.

Lemma prefix_of_seq : forall (h l : list msg),
  map ms_seq h = seq 0 (length h) ->
  (forall m, In m h -> nth_error l (ms_seq m) = Some m) -> h = firstn (length h) l.
Proof.
  intros h l E H.
  assert (G : forall (h l : list msg) b, map ms_seq h = seq b (length h) ->
     (forall m, In m h -> nth_error l (ms_seq m - b) = Some m) -> h = firstn (length h) l).
  { clear. induction h as [|m t IH]; intros l b E H; [reflexivity|].
    cbn [map length seq] in E. injection E as E1 E2.
    pose proof (H m (or_introl eq_refl)) as K. rewrite E1, Nat.sub_diag in K.
    destruct l as [|x l]; [discriminate|]. injection K as ->.
    cbn [length firstn]. f_equal. apply (IH l (S b)); auto.
    intros m' Hm'. specialize (H m' (or_intror Hm')).
    destruct (nth_of_seq t (S b) m' E2 Hm') as (_ & L).
    replace (ms_seq m' - b) with (S (ms_seq m' - S b)) in H by lia. exact H. }
  apply (G h l 0); auto. intros m Hm. rewrite Nat.sub_0_r. auto.
Qed.

(** C32. Any number of ranks [s] run arbitrary programs of sends. Whatever the order
    in which the network delivers their messages to rank [d] (with some possibly
    still under way, [late s]), and however receives, probes and payloads are
    interleaved: the queue of [d] does not abort, and it handles the messages of
    each sender in program order: exactly the longest run of messages from the
    start of the program that has been delivered. *)
Theorem messages_in_order : forall vshort eager d (prog : nat -> list send) (late : nat -> list msg) ops,
  (forall s, Permutation (from s (arrivals ops) ++ late s) (sent_to vshort eager s d (prog s))) ->
  NoDup (posted_by ops) ->
  exists q, mq_run mq0 ops = Some q /\
    forall s, exists k,
      from s (q_handled q) = firstn k (sent_to vshort eager s d (prog s))
      /\ incl (firstn k (sent_to vshort eager s d (prog s))) (arrivals ops)
      /\ (forall m, nth_error (sent_to vshort eager s d (prog s)) k = Some m ->
                    ~ In m (arrivals ops) /\ In m (late s)).
Proof.
  intros v e d prog late ops HP NP.
  assert (SQ : forall s, map ms_seq (sent_to v e s d (prog s))
               = seq 0 (length (sent_to v e s d (prog s)))
               /\ forall m, In m (sent_to v e s d (prog s)) -> ms_src m = s).
  { intros s. destruct (send_all_to v e s d (prog s) (fun _ => 0)) as (A & B & C & D & E).
    fold (sent_to v e s d (prog s)) in *. split; auto. rewrite A. f_equal.
    rewrite <- (map_length ms_seq (sent_to v e s d (prog s))), A, seq_length. reflexivity. }
  assert (NK : NoDup (map key (arrivals ops))).
  { apply nodup_keys. intros s. destruct (SQ s) as (A & _).
    assert (K : NoDup (map ms_seq (from s (arrivals ops) ++ late s))).
    { eapply Permutation_NoDup; [apply Permutation_sym, Permutation_map, HP|].
      rewrite A. apply seq_NoDup. }
    rewrite map_app in K. apply ListFacts.nodup_app_iff in K. tauto. }
  destruct (queue_inv ops NK NP) as (q & R & Q & P). exists q. split; [exact R|].
  intros s. destruct (SQ s) as (A & SRC). destruct (qi_s _ _ Q s) as [S1 S2 S3 S4].
  set (sent := sent_to v e s d (prog s)) in *.
  assert (IN : forall m, In m (arrivals ops) -> ms_src m = s -> In m sent).
  { intros m H E. eapply Permutation_in; [apply HP|]. apply in_or_app. left.
    apply filter_In. split; auto. apply Nat.eqb_eq; auto. }
  assert (NTH : forall m, In m sent -> nth_error sent (ms_seq m) = Some m).
  { intros m H. destruct (nth_of_seq sent 0 m A H) as (K & _).
    now rewrite Nat.sub_0_r in K. }
  assert (HS : forall m, In m (from s (q_handled q)) -> In m (arrivals ops) /\ ms_src m = s).
  { intros m H. apply filter_In in H. destruct H as (H & E). apply Nat.eqb_eq in E.
    split; auto. apply (qi_arr _ _ Q m H). }
  assert (L : q_next q s = length (from s (q_handled q))).
  { rewrite <- (map_length ms_seq). unfold from. unfold of_src in S1. rewrite S1, seq_length. auto. }
  assert (EQ : from s (q_handled q) = firstn (q_next q s) sent).
  { rewrite L. apply prefix_of_seq.
    - unfold of_src in S1. unfold from at 1. rewrite S1, L. reflexivity.
    - intros m H. destruct (HS m H). auto. }
  exists (q_next q s). split; [exact EQ|]. split.
  - rewrite <- EQ. intros m H. apply HS. auto.
  - intros m Hm. assert (Hi : In m sent) by (eapply nth_error_In; eauto).
    assert (Es : ms_seq m = q_next q s).
    { pose proof (NTH m Hi) as K.
      assert (ND : NoDup sent).
      { apply (NoDup_map_inv ms_seq). rewrite A. apply seq_NoDup. }
      rewrite NoDup_nth_error in ND. apply ND.
      - apply nth_error_Some. congruence.
      - congruence. }
    assert (NA : ~ In m (arrivals ops)).
    { intros K. destruct (S4 m K (SRC m Hi)) as [H|H].
      - pose proof (handled_lt q s m S1 H (SRC m Hi)). lia.
      - pose proof (sorted_ge _ _ _ S2 H). lia. }
    split; auto.
    eapply Permutation_in in Hi; [|apply Permutation_sym, HP].
    apply in_app_or in Hi. destruct Hi as [Hi|Hi]; auto.
    exfalso. apply NA. apply filter_In in Hi. tauto.
Qed.
Print Assumptions messages_in_order.

(** When everything sent has been delivered, everything is handled, in program order. *)
Theorem messages_all_handled : forall vshort eager d (prog : nat -> list send) ops,
  (forall s, Permutation (from s (arrivals ops)) (sent_to vshort eager s d (prog s))) ->
  NoDup (posted_by ops) ->
  exists q, mq_run mq0 ops = Some q /\
    forall s, from s (q_handled q) = sent_to vshort eager s d (prog s).
Proof.
  intros v e d prog ops HP NP.
  destruct (messages_in_order v e d prog (fun _ => []) ops) as (q & R & H); auto.
  { intros s. rewrite app_nil_r. apply HP. }
  exists q. split; auto. intros s. destruct (H s) as (k & E & _ & M).
  rewrite E. apply firstn_all2. apply nth_error_None.
  destruct (nth_error _ k) eqn:K; auto. destruct (M _ eq_refl) as (_ & []).
Qed.
Print Assumptions messages_all_handled.

(** Two senders; the messages of sender 7 arrive in the order 2, 0, 1. *)
Definition ex_prog (s : nat) : list send :=
  if s =? 7 then
    [Send 3 1 0%Z 5%Z 100%N 70; Send 4 1 0%Z 5%Z 100%N 99;
     Send 3 1 0%Z 6%Z 9000%N 71; Send 3 1 0%Z 5%Z 100%N 72]
  else if s =? 8 then [Send 3 1 1%Z 5%Z 1000%N 80]
  else [].

Definition ex_msg s i := nth i (sent_to 512 8192 s 3 (ex_prog s)) (Msg 0 0 0 0%Z 0%Z Eager0 0).

Definition ex_ops : list op :=
  [Arrive (ex_msg 7 2); Arrive (ex_msg 8 0); Arrive (ex_msg 7 0);
   Post (Req 0 1 any_source any_tag); Arrive (ex_msg 7 1)].

Example messages_in_order_ex :
  (forall s, Permutation (from s (arrivals ex_ops)) (sent_to 512 8192 s 3 (ex_prog s)))
  /\ option_map (fun q => map ms_data (q_handled q)) (mq_run mq0 ex_ops) = Some [80; 70; 71; 72].
Proof.
  split; [|vm_compute; reflexivity].
  intros s. destruct (Nat.eq_dec s 7) as [->|N7]; [|destruct (Nat.eq_dec s 8) as [->|N8]].
  - change (Permutation [ex_msg 7 2; ex_msg 7 0; ex_msg 7 1] [ex_msg 7 0; ex_msg 7 1; ex_msg 7 2]).
    change [ex_msg 7 0; ex_msg 7 1; ex_msg 7 2] with ([ex_msg 7 0; ex_msg 7 1] ++ ex_msg 7 2 :: []).
    apply Permutation_cons_app. rewrite app_nil_r. apply Permutation_refl.
  - vm_compute. repeat constructor.
  - unfold ex_prog. destruct (Nat.eqb_spec s 7); [congruence|]. destruct (Nat.eqb_spec s 8); [congruence|].
    replace (from s (arrivals ex_ops)) with (@nil msg); [constructor|].
    unfold ex_ops, from. cbn [arrivals filter].
    change (ms_src (ex_msg 7 2)) with 7. change (ms_src (ex_msg 8 0)) with 8.
    change (ms_src (ex_msg 7 0)) with 7. change (ms_src (ex_msg 7 1)) with 7.
    destruct (Nat.eqb_spec 7 s); [congruence|]. destruct (Nat.eqb_spec 8 s); [congruence|]. reflexivity.
Qed.

(** C33. [compatible r m]: MPI allows receive [r] to take message [m]. *)
Definition compatible (r : req) (m : msg) : Prop :=
  rq_comm r = ms_comm m
  /\ (rq_source r = any_source \/ rq_source r = ms_rank m)
  /\ (rq_tag r = any_tag \/ rq_tag r = ms_tag m).

Lemma matches_compatible : forall r m, matches r m = true <-> compatible r m.
Proof.
  intros r m. unfold matches, compatible.
  rewrite !andb_true_iff, !orb_true_iff, !Z.eqb_eq, Nat.eqb_eq. tauto.
Qed.

(** Every match is between compatible partners that exist, and neither a message
    nor a receive is ever used twice. *)
Theorem matching_sound : forall ops q,
  NoDup (map key (arrivals ops)) -> NoDup (posted_by ops) ->
  mq_run mq0 ops = Some q ->
  NoDup (map fst (q_log q)) /\ NoDup (map snd (q_log q)) /\
  forall r m, In (r, m) (q_log q) ->
    compatible r m /\ In r (posted_by ops) /\ In m (arrivals ops).
Proof.
  intros ops q N1 N2 R. destruct (queue_inv ops N1 N2) as (q' & R' & Q & P).
  rewrite R in R'. injection R' as <-.
  destruct Q as [I F HA HS].
  split; [apply I|]. split; [apply I|]. intros r m H.
  destruct (mi_log q I r m H) as (A & B & C). rewrite <- P.
  split; [now apply matches_compatible|]. split; auto.
  apply HA, (fi_ready q F), B.
Qed.
Print Assumptions matching_sound.

(** A message is given to the earliest posted receive that can take it: a
    compatible receive posted before the one that got it was used before. *)
Theorem earliest_receive : forall ops q l1 r m l2 r1,
  NoDup (map key (arrivals ops)) -> NoDup (posted_by ops) ->
  mq_run mq0 ops = Some q -> q_log q = l1 ++ (r, m) :: l2 ->
  before (posted_by ops) r1 r -> compatible r1 m ->
  exists m', In (r1, m') l1.
Proof.
  intros ops q l1 r m l2 r1 N1 N2 R E B C.
  destruct (queue_inv ops N1 N2) as (q' & R' & Q & P).
  rewrite R in R'. injection R' as <-.
  destruct (mi_order q (qi_m _ _ Q) _ _ _ _ E) as (O & _). rewrite P in O.
  apply O; auto. now apply matches_compatible.
Qed.
Print Assumptions earliest_receive.

(** Nothing that could be matched is left waiting: if all headers from [m]'s
    sender up to [m] have been delivered and [m]'s data is here, and neither [m]
    nor [r] is matched, they are incompatible. *)
Theorem no_missed_match : forall ops q r m,
  NoDup (map key (arrivals ops)) -> NoDup (posted_by ops) ->
  mq_run mq0 ops = Some q ->
  In r (posted_by ops) -> In m (q_handled q) -> ~ In m (q_gets q) ->
  ~ In r (map fst (q_log q)) -> ~ In m (map snd (q_log q)) -> ~ compatible r m.
Proof.
  intros ops q r m N1 N2 R Hr Hm Hg Ur Um C.
  destruct (queue_inv ops N1 N2) as (q' & R' & Q & P).
  rewrite R in R'. injection R' as <-. destruct Q as [I F HA HS].
  apply matches_compatible in C. rewrite (mi_apart q I r m) in C; [discriminate| |].
  - rewrite (mi_posted q I). apply filter_In. rewrite P. split; auto. now apply free_true.
  - rewrite (mi_unexp q I). apply filter_In.
    destruct (fi_done q F m Hm); [|contradiction]. split; auto. now apply free_true.
Qed.
Print Assumptions no_missed_match.

(** Non-overtaking, the part that holds: a message [m1] sent by a rank before [m2]
    and not using the Eager1 protocol cannot be overtaken: if [m2] was given to a
    receive that could have taken [m1], then [m1] had been given away before.
    Missing: messages of Eager1 size, see [overtaking_refuted]. *)
Theorem non_overtaking_partial : forall ops q l1 r m1 m2 l2,
  NoDup (map key (arrivals ops)) -> NoDup (posted_by ops) ->
  mq_run mq0 ops = Some q -> q_log q = l1 ++ (r, m2) :: l2 ->
  In m1 (q_handled q) -> ms_src m1 = ms_src m2 -> ms_seq m1 < ms_seq m2 ->
  ms_prot m1 <> Eager1 -> compatible r m1 ->
  exists r', In (r', m1) l1.
Proof.
  intros ops q l1 r m1 m2 l2 N1 N2 R E H1 Es L NE C.
  destruct (queue_inv ops N1 N2) as (q' & R' & Q & P).
  rewrite R in R'. injection R' as <-. destruct Q as [I F HA HS].
  assert (K : In (r, m2) (q_log q)) by (rewrite E; apply in_or_app; right; left; reflexivity).
  destruct (mi_log q I _ _ K) as (_ & K2 & _).
  destruct (mi_order q I _ _ _ _ E) as (_ & O). apply O.
  - apply (fi_order q F); auto.
  - now apply matches_compatible.
Qed.
Print Assumptions non_overtaking_partial.

(** The handled messages include every earlier message of the sender, so the
    hypothesis [In m1 (q_handled q)] above is met by all of them. *)
Theorem earlier_are_handled : forall vshort eager d (prog : nat -> list send) (late : nat -> list msg) ops q r m2 s i j m1,
  (forall s, Permutation (from s (arrivals ops) ++ late s) (sent_to vshort eager s d (prog s))) ->
  NoDup (posted_by ops) -> mq_run mq0 ops = Some q ->
  In (r, m2) (q_log q) ->
  nth_error (sent_to vshort eager s d (prog s)) i = Some m1 ->
  nth_error (sent_to vshort eager s d (prog s)) j = Some m2 -> i < j ->
  In m1 (q_handled q) /\ ms_src m1 = ms_src m2 /\ ms_seq m1 < ms_seq m2.
Proof.
  intros v e d prog late ops q r m2 s i j m1 HP NP R HL E1 E2 L.
  destruct (messages_in_order v e d prog late ops HP NP) as (q' & R' & H).
  rewrite R in R'. injection R' as <-.
  assert (NK : NoDup (map key (arrivals ops))).
  { apply nodup_keys. intros t.
    destruct (send_all_to v e t d (prog t) (fun _ => 0)) as (A & _).
    assert (K : NoDup (map ms_seq (from t (arrivals ops) ++ late t))).
    { eapply Permutation_NoDup; [apply Permutation_sym, Permutation_map, HP|].
      unfold sent_to. rewrite A. apply seq_NoDup. }
    rewrite map_app in K. apply ListFacts.nodup_app_iff in K. tauto. }
  destruct (queue_inv ops NK NP) as (q' & R' & Q & P).
  rewrite R in R'. injection R' as <-.
  assert (H2 : In m2 (q_handled q)).
  { apply (fi_ready q (qi_f _ _ Q)). apply (mi_log q (qi_m _ _ Q) _ _ HL). }
  destruct (send_all_to v e s d (prog s) (fun _ => 0)) as (A & _ & _ & _ & SRC). cbv beta zeta in A.
  fold (sent_to v e s d (prog s)) in *. set (sent := sent_to v e s d (prog s)) in *.
  assert (NS : forall n x, nth_error sent n = Some x -> ms_seq x = n).
  { intros n x E. assert (K : nth_error (map ms_seq sent) n = Some (ms_seq x))
      by (now apply map_nth_error).
    rewrite A in K. assert (H0 : n < length sent) by (apply nth_error_Some; congruence).
    rewrite <- (map_length ms_seq), A, seq_length in H0. rewrite (nth_error_nth' _ 0) in K by (rewrite seq_length; lia).
    rewrite seq_nth in K by lia. injection K. lia. }
  pose proof (SRC m1 (nth_error_In _ _ E1)) as S1.
  pose proof (SRC m2 (nth_error_In _ _ E2)) as S2.
  split; [|split; [congruence|rewrite (NS _ _ E1), (NS _ _ E2); exact L]].
  destruct (H s) as (k & EQ & _ & _). fold sent in EQ.
  assert (In m2 (from s (q_handled q))).
  { apply filter_In. split; auto. now apply Nat.eqb_eq. }
  rewrite EQ in H0. apply In_nth_error in H0. destruct H0 as (n & Hn).
  assert (n < length (firstn k sent)) by (apply nth_error_Some; congruence).
  rewrite firstn_length in H0.
  assert (Hn2 : nth_error sent n = Some m2).
  { rewrite <- Hn. rewrite <- (firstn_skipn k sent) at 1. apply nth_error_app1.
    rewrite firstn_length. exact H0. }
  assert (n = j) by (rewrite <- (NS _ _ Hn2); apply NS; auto). subst n.
  assert (In m1 (from s (q_handled q))).
  { rewrite EQ. eapply nth_error_In with (n := i).
    rewrite <- E1. rewrite <- (firstn_skipn k sent) at 2. symmetry. apply nth_error_app1.
    rewrite firstn_length. lia. }
  apply filter_In in H1. tauto.
Qed.
Print Assumptions earlier_are_handled.

Example non_overtaking_ex :
  NoDup (map key (arrivals ex_ops)) /\ NoDup (posted_by ex_ops)
  /\ option_map (fun q => map (fun e => ms_data (snd e)) (q_log q)) (mq_run mq0 ex_ops) = Some [70]
  /\ option_map (fun q => map ms_data (q_unexp q)) (mq_run mq0 ex_ops) = Some [71; 72].
Proof.
  split; [|split; [|split; vm_compute; reflexivity]].
  - vm_compute. repeat constructor; intros K; repeat destruct K as [K|K]; try discriminate; auto.
  - vm_compute. repeat constructor. intros [].
Qed.

(** Non-overtaking fails with the default thresholds: one rank sends 1000 bytes,
    then 100 bytes, with the same tag on the same communicator; the two receives
    get them in the opposite order, although both headers arrived in order. *)
Theorem overtaking_refuted : exists (prog : list send) (ops : list op) q r1 r2 m1 m2,
  arrivals ops = sent_to 512 8192 7 3 prog /\ sent_to 512 8192 7 3 prog = [m1; m2]
  /\ map sd_tag prog = [5%Z; 5%Z] /\ map sd_comm prog = [1; 1]
  /\ posted_by ops = [r1; r2] /\ r1 <> r2
  /\ compatible r1 m1 /\ compatible r1 m2 /\ compatible r2 m1 /\ compatible r2 m2
  /\ mq_run mq0 ops = Some q /\ q_log q = [(r1, m2); (r2, m1)].
Proof.
  set (prog := [Send 3 1 0%Z 5%Z 1000%N 70; Send 3 1 0%Z 5%Z 100%N 71]).
  set (m1 := Msg 7 0 1 0%Z 5%Z Eager1 70). set (m2 := Msg 7 1 1 0%Z 5%Z Eager0 71).
  set (r1 := Req 0 1 0%Z 5%Z). set (r2 := Req 1 1 0%Z 5%Z).
  set (ops := [Post r1; Arrive m1; Arrive m2; Payload 0; Post r2]).
  exists prog, ops.
  destruct (mq_run mq0 ops) as [q|] eqn:R; [|vm_compute in R; discriminate].
  exists q, r1, r2, m1, m2.
  repeat split; try reflexivity; try (intros K; discriminate K);
    try (right; reflexivity); try (left; reflexivity).
  assert (K : option_map q_log (mq_run mq0 ops) = Some [(r1, m2); (r2, m1)])
    by (vm_compute; reflexivity).
  rewrite R in K. cbn [option_map] in K. injection K as K. exact K.
Qed.
Print Assumptions overtaking_refuted.

(** C80. What holds about blocking probes: a probe completes with a message that
    it is compatible with and that was delivered; and if no message uses Eager1,
    no probe waits while a compatible message is waiting for a receive. *)
Theorem probe_served_partial : forall ops q,
  NoDup (map key (arrivals ops)) -> NoDup (posted_by ops) ->
  mq_run mq0 ops = Some q ->
  (forall m, In m (arrivals ops) -> ms_prot m <> Eager1) ->
  forall p m, In p (q_probes q) -> In m (q_handled q) -> ~ In m (map snd (q_log q)) ->
  ~ compatible p m.
Proof.
  intros ops q N1 N2 R NE p m Hp Hm Um C.
  destruct (queue_inv ops N1 N2) as (q' & R' & Q & P).
  rewrite R in R'. injection R' as <-. destruct Q as [I F HA HS].
  apply (NE m (HA m Hm)). apply (fi_probe q F p m Hp).
  - rewrite (mi_unexp q I). apply filter_In. split; [|now apply free_true].
    destruct (fi_done q F m Hm) as [K|K]; auto. apply (fi_gets q F) in K.
    destruct K as (K & E & _). exfalso. apply (NE m (HA m Hm) E).
  - now apply matches_compatible.
Qed.
Print Assumptions probe_served_partial.

Example probe_served_ex :
  let ops := [Probe (Req 9 1 any_source 6%Z); Arrive (ex_msg 7 0); Arrive (ex_msg 7 1)] in
  option_map (fun q => (q_probes q, map (fun e => ms_data (snd e)) (q_probed q)))
    (mq_run mq0 ops) = Some ([], [71]).
Proof. vm_compute. reflexivity. Qed.

(** A blocked probe never learns of a message of Eager1 size: the message has
    arrived completely and waits for a receive, the probe still waits. *)
Theorem probe_missed_refuted : exists ops q p m,
  NoDup (map key (arrivals ops)) /\ NoDup (posted_by ops)
  /\ mq_run mq0 ops = Some q /\ In p (q_probes q)
  /\ In m (q_unexp q) /\ compatible p m /\ q_gets q = [] /\ q_probed q = [].
Proof.
  set (m := ex_msg 8 0). set (p := Req 0 1 1%Z 5%Z).
  set (ops := [Probe p; Arrive m; Payload 0]).
  destruct (mq_run mq0 ops) as [q|] eqn:R; [|vm_compute in R; discriminate].
  exists ops, q, p, m.
  assert (K : option_map (fun q => (q_probes q, q_unexp q, q_gets q, q_probed q)) (mq_run mq0 ops)
              = Some ([p], [m], [], [])) by (vm_compute; reflexivity).
  rewrite R in K. cbn [option_map] in K. injection K as K1 K2 K3 K4.
  rewrite K1, K2, K3, K4.
  repeat split; cbn [In]; auto; try (vm_compute; right; reflexivity).
  - vm_compute. repeat constructor. intros [].
  - constructor.
Qed.
Print Assumptions probe_missed_refuted.

(** A probe can report a message that an earlier posted receive has taken, so that
    a receive made on the strength of the probe gets nothing. *)
Theorem probe_stale_refuted : exists ops q p r m,
  NoDup (map key (arrivals ops)) /\ NoDup (posted_by ops)
  /\ mq_run mq0 ops = Some q /\ q_probed q = [(p, m)] /\ q_log q = [(r, m)]
  /\ q_unexp q = []
  /\ (forall q', mq_op q (Post (Req 77 1 0%Z 5%Z)) = Some q' -> q_log q' = q_log q).
Proof.
  set (m := ex_msg 7 0). set (p := Req 0 1 0%Z 5%Z). set (r := Req 1 1 any_source any_tag).
  set (ops := [Post r; Probe p; Arrive m]).
  destruct (mq_run mq0 ops) as [q|] eqn:R; [|vm_compute in R; discriminate].
  exists ops, q, p, r, m.
  assert (K : option_map (fun q => (q_probed q, q_log q, q_unexp q)) (mq_run mq0 ops)
              = Some ([(p, m)], [(r, m)], [])) by (vm_compute; reflexivity).
  rewrite R in K. cbn [option_map] in K. injection K as K1 K2 K3.
  rewrite K1, K2, K3. repeat split; auto.
  - vm_compute. repeat constructor. intros [].
  - vm_compute. repeat constructor. intros [].
  - intros q'. cbn [mq_op]. unfold post_recv. rewrite K3. cbn [take_first].
    intros E. injection E as <-. cbn [q_log]. exact K2.
Qed.
Print Assumptions probe_stale_refuted.
