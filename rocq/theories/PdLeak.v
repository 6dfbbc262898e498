(* Which memory is still allocated: blocks that a message or a posted receive owns, when no
   send is of a kind whose temporary is never deleted *)
From Coq Require Import List ZArith Bool Arith Lia Permutation.
From Verif Require Import DtModel DtSpec DtProof PdModel PdSpec PdHeap PdInv PdMove PdRun.
Import ListNotations.
Local Open Scope Z_scope.

Definition live (H : hp) (k : nat) : Prop := hp_heap H k <> None.

(* Every send is an Eager1 message or a contiguous rendezvous *)
Definition tidy (c : pcfg) (h : list pobs) : Prop := forall f b d n src, In (OSend f b d n src) h ->
  c_vshort c < size_of d n /\ (size_of d n <= c_eager c \/ mcontig (build d) = true).

Lemma live_store : forall p m H k, live (store p m H) k -> live H k.
Proof.
  intros [|b|j] m H k L; cbn in L; auto. destruct (hp_heap H j) as [(n, x)|] eqn:E; [|exact L].
  unfold live in *. cbn in L. unfold upd in L. destruct (Nat.eqb_spec k j) as [->|]; [congruence|exact L].
Qed.
Lemma live_memcpy : forall d s n H H' k, memcpy d s n H = Some H' -> live H' k -> live H k.
Proof.
  intros d s n H H' k E L. unfold memcpy in E. destruct (block d H) as [(sd, x)|]; [|discriminate]. destruct (block s H) as [(ss, y)|]; [|discriminate].
  destruct (within n sd && within n ss); [|discriminate]. injection E as <-. eapply live_store; eauto.
Qed.
Lemma live_unpacks : forall mv p u H H' k, unpacks mv p u H = Some H' -> live H' k -> live H k.
Proof.
  intros mv p u H H' k E L. unfold unpacks in E. destruct (block p H) as [(sd, x)|]; [|discriminate]. destruct (block u H) as [(ss, y)|]; [|discriminate].
  destruct (in_block mv sd); [|discriminate]. injection E as <-. eapply live_store; eauto.
Qed.
Lemma live_packs : forall mv p u H H' k, packs mv p u H = Some H' -> live H' k -> live H k.
Proof.
  intros mv p u H H' k E L. unfold packs in E. destruct (block p H) as [(sd, x)|]; [|discriminate]. destruct (block u H) as [(ss, y)|]; [|discriminate].
  destruct (in_block mv sd); [|discriminate]. injection E as <-. eapply live_store; eauto.
Qed.
Lemma live_free : forall p H H' k, free p H = Some H' -> live H' k -> live H k /\ ~ In k (tmp p).
Proof.
  intros [|b|j] H H' k E L; cbn in E; try discriminate.
  - injection E as <-. split; [exact L|intros []].
  - destruct (hp_heap H j) as [x|] eqn:EJ; [|discriminate]. injection E as <-. unfold live in *. cbn in L. unfold upd in L.
    destruct (Nat.eqb_spec k j) as [->|]; [congruence|]. split; [exact L|]. intros [K|[]]. congruence.
Qed.
Lemma live_alloc : forall J n H k, live (snd (alloc J n H)) k -> live H k \/ k = hp_next H.
Proof. intros J n H k L. unfold live in *. cbn in L. unfold upd in L. destruct (Nat.eqb_spec k (hp_next H)); [now right|left; exact L]. Qed.
Lemma live_wire : forall c p n H w H' k, on_wire c p n H = Some (w, H') -> live H' k -> live H k \/ In k (tmp w).
Proof.
  intros c p n H w H' k E L. unfold on_wire in E. destruct p as [|b|j].
  1: injection E as <- <-; now left.
  all: destruct (alloc (c_junk c) n H) as (w1, h1) eqn:A; destruct (memcpy w1 _ n h1) as [h2|] eqn:M; [|discriminate];
    injection E as <- <-; apply (live_memcpy _ _ _ _ _ _ M) in L; replace h1 with (snd (alloc (c_junk c) n H)) in L by (now rewrite A);
    apply live_alloc in L; destruct L as [L| ->]; [now left|]; right; unfold alloc in A; injection A as <- _; now left.
Qed.
Lemma live_fill : forall c b d n H p H' k, fill c b d n H = Some (p, H') -> live H' k -> live H k \/ In k (tmp p).
Proof.
  intros c b d n H p H' k E L. unfold fill in E. destruct (alloc (c_junk c) (size_of d n) H) as (w1, h1) eqn:A.
  destruct (if mcontig (build d) then _ else _) as [h2|] eqn:M; [|discriminate]. injection E as <- <-.
  assert (L1 : live h1 k) by (destruct (mcontig (build d)); [eapply live_memcpy; eauto|eapply live_packs; eauto]).
  replace h1 with (snd (alloc (c_junk c) (size_of d n) H)) in L1 by (now rewrite A).
  apply live_alloc in L1. destruct L1 as [L1| ->]; [now left|]. right. unfold alloc in A. injection A as <- _. now left.
Qed.
Lemma live_destroy : forall m H H' k, destroy m H = Some H' -> live H' k -> live H k.
Proof.
  intros m H H' k E L. unfold destroy in E. destruct (free (g_wire m) H) as [h1|] eqn:F; [|discriminate].
  apply (live_free _ _ _ _ E) in L. destruct L as (L & _). apply (live_free _ _ _ _ F) in L. apply L.
Qed.
(* After finalizeRecv the buffer of the request is gone *)
Lemma live_finalize : forall m q H H' k, finalize m q H = Some H' -> (mcontig (build (q_type q)) = true -> tmp (q_recv q) = []) ->
  live H' k -> live H k /\ ~ In k (ownq q).
Proof.
  intros m q H H' k E C L. unfold finalize in E. unfold ownq. destruct (mcontig (build (q_type q))).
  - injection E as <-. rewrite C by reflexivity. split; [exact L|intros []].
  - destruct (unpacks _ _ _ H) as [h1|] eqn:U; [|discriminate]. apply (live_free _ _ _ _ E) in L. destruct L as (L & N).
    split; [|exact N]. eapply live_unpacks; eauto.
Qed.

Section Leak.
Variable c : pcfg.

Definition next_ok (H : hp) (ks : list nat) (H' : hp) (its : list item) : Prop :=
  forall k, live H' k -> In k (flat_map own its) \/ (live H k /\ ~ In k ks).

Lemma tidy_prot : forall h H R it b d n src, tidy c h -> In (OSend (fid it) b d n src) h -> g_prot (snd it) = choose c (size_of d n) ->
  body c h H R it b d n src -> g_prot (snd it) <> Eager0 /\ (g_prot (snd it) = Rendezvous -> mcontig (build d) = true).
Proof.
  intros h H R it b d n src T S P B. destruct (T _ _ _ _ _ S) as (T1 & T2). rewrite P. unfold choose.
  destruct (Z.leb_spec (size_of d n) (c_vshort c)); [lia|]. destruct (Z.leb_spec (size_of d n) (c_eager c)); split; try discriminate.
  intros _. destruct T2; [lia|assumption].
Qed.

Lemma src_tmp : forall H b d n src p, src_ok H b d n src p -> mcontig (build d) = true -> tmp p = [].
Proof. intros H b d n src p [(F & _)|(-> & _)] C; [congruence|reflexivity]. Qed.

Lemma arrive_live : forall h H R m its H', tidy c h -> okm c h H R (Net, m) -> arrive c m H = Some (its, H') ->
  next_ok H (own (Net, m)) H' its.
Proof.
  intros h H R m its H' T (b & d & n & src & S & _ & _ & P & B) E.
  destruct (tidy_prot _ _ _ _ _ _ _ _ T S P B) as (N0 & NR). cbn [snd] in *. unfold body in B. cbn [fst snd] in B.
  unfold arrive in E. intros k L.
  destruct (g_prot m) eqn:EP; [congruence| |]; destruct (g_ty m) eqn:TY; try contradiction.
  - (* Eager1 Smsg *) destruct B as (_ & (B1 & B2) & BA & F).
    assert (X : its = [(Cq, with_bufs m Null Null)] /\ H' = H).
    { rewrite B1, B2 in E. unfold on_wire, acks in E. rewrite BA in E. destruct (g_path m); injection E as <- <-; auto. }
    destruct X as (-> & ->). unfold own. cbn [snd fst with_bufs g_ty g_prot g_partner flat_map]. rewrite EP, TY.
    cbn [flat_map]. rewrite !app_nil_r. destruct (in_dec Nat.eq_dec k (tmp (g_partner m))); auto.
  - (* GetReq *) destruct B as (_ & PA & (B1 & B2) & BA & BP & F & RM).
    destruct (on_wire c (g_remote (to_payload m)) (g_pay (to_payload m)) H) as [(w, h1)|] eqn:W; [|discriminate]. injection E as <- <-.
    unfold acks. cbn [with_bufs to_payload g_ack g_ty]. rewrite BA. unfold own.
    cbn [snd fst with_bufs to_payload to_ack g_ty g_prot g_path g_remote g_wire g_local flat_map]. rewrite EP, PA, TY. cbn [flat_map]. rewrite !app_nil_r.
    destruct (live_wire _ _ _ _ _ _ _ W L) as [L1|L1]; [|left; rewrite !in_app_iff; auto].
    destruct (in_dec Nat.eq_dec k (tmp (g_remote m) ++ tmp (g_local m))) as [I|I]; [left; rewrite !in_app_iff in *; tauto|auto].
  - (* GetPay *) destruct B as (B1 & BA & BP & B).
    destruct (g_path m) eqn:PA.
    3: { destruct B as (F & RM). destruct (memcpy _ _ _ H) as [h1|] eqn:M; [|discriminate]. destruct (free _ h1) as [h2|] eqn:FR; [|discriminate].
         injection E as <- <-. apply (live_free _ _ _ _ FR) in L. destruct L as (L & NW). apply (live_memcpy _ _ _ _ _ _ M) in L.
         unfold own. cbn [snd fst with_bufs g_ty g_prot g_path g_local flat_map]. rewrite TY, PA. cbn [flat_map]. rewrite !app_nil_r.
         destruct (in_dec Nat.eq_dec k (tmp (g_local m))); [auto|]. right. split; [exact L|]. rewrite in_app_iff. tauto. }
    all: destruct B as (WN & F & RM); destruct (memcpy _ _ _ H) as [h1|] eqn:M; [|discriminate]; injection E as <- <-;
      apply (live_memcpy _ _ _ _ _ _ M) in L; unfold acks; rewrite BA, TY; unfold own;
      cbn [snd fst to_ack g_ty g_prot g_path g_local g_remote flat_map]; rewrite TY, PA, EP; cbn [flat_map]; rewrite !app_nil_r;
      destruct (in_dec Nat.eq_dec k (tmp (g_remote m) ++ tmp (g_local m))) as [I|I]; [left; rewrite !in_app_iff in *; tauto|auto].
  - (* GetAck *) injection E as <- <-. unfold own. cbn [snd fst]. rewrite TY, EP. cbn [flat_map fst snd]. rewrite TY, EP. cbn [flat_map]. rewrite !app_nil_r.
    destruct (in_dec Nat.eq_dec k (tmp (g_remote m))); auto.
  - (* Rendezvous Smsg *) destruct B as ((B1 & B2) & BA & F).
    assert (X : its = [(Cq, with_bufs m Null Null)] /\ H' = H).
    { rewrite B1, B2 in E. unfold on_wire, acks in E. rewrite BA in E. destruct (g_path m); injection E as <- <-; auto. }
    destruct X as (-> & ->). unfold own. cbn [snd fst with_bufs g_ty g_prot g_partner g_stage flat_map]. rewrite EP, TY.
    rewrite app_nil_r.
    match goal with |- In k ?l \/ _ => destruct (in_dec Nat.eq_dec k l); auto end.
  - (* Rendezvous GetReq *) destruct B as (_ & PA & (B1 & B2) & BA & BP & F & RM).
    destruct (on_wire c (g_remote (to_payload m)) (g_pay (to_payload m)) H) as [(w, h1)|] eqn:W; [|discriminate]. injection E as <- <-.
    assert (RT := src_tmp _ _ _ _ _ _ F (NR eq_refl)).
    unfold own. cbn [snd fst with_bufs to_payload g_ty g_prot g_path g_remote g_wire g_local flat_map]. rewrite PA, TY. cbn [flat_map].
    rewrite RT, !app_nil_r. cbn [app].
    destruct (live_wire _ _ _ _ _ _ _ W L) as [L1|L1]; [|left; rewrite !in_app_iff; auto].
    destruct (in_dec Nat.eq_dec k (tmp (g_local m))) as [I|I]; [left; rewrite !in_app_iff in *; tauto|auto].
  - (* Rendezvous GetPay *) destruct B as (_ & B1 & BA & BP & B).
    destruct (g_path m) eqn:PA.
    3: { destruct B as (F & RM). destruct (memcpy _ _ _ H) as [h1|] eqn:M; [|discriminate]. destruct (free _ h1) as [h2|] eqn:FR; [|discriminate].
         injection E as <- <-. apply (live_free _ _ _ _ FR) in L. destruct L as (L & NW). apply (live_memcpy _ _ _ _ _ _ M) in L.
         unfold own. cbn [snd fst with_bufs g_ty g_prot g_path g_local flat_map]. rewrite TY, PA. cbn [flat_map]. rewrite !app_nil_r.
         destruct (in_dec Nat.eq_dec k (tmp (g_local m))); [auto|]. right. split; [exact L|]. rewrite in_app_iff. tauto. }
    all: destruct B as (WN & F & RM); assert (RT := src_tmp _ _ _ _ _ _ F (NR eq_refl));
      destruct (memcpy _ _ _ H) as [h1|] eqn:M; [|discriminate]; injection E as <- <-;
      apply (live_memcpy _ _ _ _ _ _ M) in L; unfold own; cbn [snd fst flat_map]; rewrite TY, PA; cbn [flat_map]; rewrite RT, !app_nil_r; cbn [app];
      destruct (in_dec Nat.eq_dec k (tmp (g_local m))) as [I|I]; [left; rewrite !in_app_iff in *; tauto|auto].
  - injection E as <- <-. unfold own. cbn [snd fst]. rewrite TY, EP. cbn [flat_map fst snd]. right. split; [exact L|intros []].
Qed.

Lemma rdv_ack_live : forall m rest s o s', rdv_ack m rest s = Next o s' ->
  s_items s' = rest /\ s_posted s' = s_posted s /\ forall k, live (s_hp s') k -> live (s_hp s) k.
Proof.
  intros m rest s o s' E. unfold rdv_ack in E. destruct (existsb _ _); [|discriminate]. destruct (destroy m (s_hp s)) as [h|] eqn:D; [|discriminate].
  injection E as <- <-. cbn. split; [reflexivity|]. split; [reflexivity|]. intros k. eapply live_destroy; eauto.
Qed.

Lemma handle_live : forall h m rest s o s', tidy c h -> okm c h (s_hp s) (s_recvs s) (Cq, m) -> NoDup (map fst (s_recvs s)) ->
  handle c m rest s = Next o s' -> exists its, s_items s' = its ++ rest /\ s_posted s' = s_posted s /\ next_ok (s_hp s) (own (Cq, m)) (s_hp s') its.
Proof.
  intros h m rest s o s' T (b & d & n & src & S & _ & _ & P & B) ND E.
  destruct (tidy_prot _ _ _ _ _ _ _ _ T S P B) as (N0 & NR). cbn [snd] in *. unfold body in B. cbn [fst snd] in B.
  unfold handle in E.
  destruct (g_prot m) eqn:EP; [congruence| |]; destruct (g_ty m) eqn:TY; try contradiction.
  - (* Eager1 Smsg *) destruct (alloc (c_junk c) (pay_size m) (s_hp s)) as (p, h1) eqn:A.
    destruct (inject c (get_request m true p) h1) as [(its, h2)|] eqn:J; [|discriminate]. injection E as <- <-.
    exists its. split; [reflexivity|]. split; [reflexivity|]. intros k L. cbn [s_hp set_items] in L.
    assert (X : own (Cq, m) = tmp (g_partner m)) by (unfold own; cbn [snd fst]; rewrite TY, EP; cbn [flat_map]; now rewrite app_nil_r).
    assert (Y : h2 = h1 /\ flat_map own its = tmp (g_partner m) ++ tmp p).
    { unfold inject in J. cbn [get_request g_ty g_path] in J. unfold own.
      destruct (g_path m) eqn:PA; injection J as <- <-; cbn [flat_map fst snd get_request to_payload g_ty g_path g_remote g_local]; rewrite ?PA; cbn [flat_map]; now rewrite !app_nil_r. }
    destruct Y as (-> & ->). rewrite X. replace h1 with (snd (alloc (c_junk c) (pay_size m) (s_hp s))) in L by (now rewrite A).
    apply live_alloc in L. unfold alloc in A. injection A as <- _.
    destruct L as [L| ->]; [|left; apply in_or_app; right; now left].
    destruct (in_dec Nat.eq_dec k (tmp (g_partner m))); [left; apply in_or_app; auto|auto].
  - destruct B as (B & _). discriminate.
  - (* GetPay *) injection E as <- <-. exists [(Unexp, m)]. split; [reflexivity|]. split; [reflexivity|]. intros k L. cbn [s_hp set_items] in L.
    unfold own. cbn [flat_map fst snd]. rewrite TY. rewrite app_nil_r. match goal with |- In k ?l \/ _ => destruct (in_dec Nat.eq_dec k l); auto end.
  - (* GetAck *) destruct (free (g_remote m) (s_hp s)) as [h1|] eqn:F; [|discriminate]. destruct (destroy m h1) as [h2|] eqn:D; [|discriminate].
    injection E as <- <-. exists []. split; [reflexivity|]. split; [reflexivity|]. intros k L. cbn [s_hp set_items] in L.
    apply (live_destroy _ _ _ _ D) in L. apply (live_free _ _ _ _ F) in L. right. unfold own. cbn [snd fst]. rewrite TY, EP. cbn [flat_map]. rewrite app_nil_r. exact L.
  - (* Rendezvous Smsg *) destruct (g_stage m) eqn:ST.
    + injection E as <- <-. exists [(Unexp, m)]. split; [reflexivity|]. split; [reflexivity|]. intros k L. cbn [s_hp set_items] in L.
      unfold own. cbn [flat_map fst snd]. rewrite TY, app_nil_r. match goal with |- In k ?l \/ _ => destruct (in_dec Nat.eq_dec k l); auto end.
    + apply rdv_ack_live in E. destruct E as (E1 & E2 & E3). exists []. split; [exact E1|]. split; [exact E2|]. intros k L. right.
      split; [auto|]. unfold own. cbn [snd fst]. rewrite TY, EP, ST. intros [].
  - destruct B as (B & _). discriminate.
  - (* Rendezvous GetPay *) destruct B as (_ & _ & _ & _ & WN & q & b2 & d2 & n2 & dst & IR & TG & _ & _ & GL & FQ).
    destruct (find_recv (g_id m) (s_recvs s)) as [q'|] eqn:FR; [|discriminate].
    assert (QQ : q' = q).
    { unfold find_recv in FR. destruct (find _ _) as [(f', q1)|] eqn:FF; [|discriminate]. injection FR as <-. apply find_some in FF.
      destruct FF as (I1 & I2). cbn in I2. apply Nat.eqb_eq in I2. subst f'. cbn [snd].
      clear - ND IR I1. induction (s_recvs s) as [|(f, x) l IH]; [destruct IR|]. cbn in ND. rewrite NoDup_cons_iff in ND. destruct ND as (N1 & N2).
      destruct IR as [E1|IR], I1 as [E2|I1]; [congruence| | |auto].
      - injection E1 as -> ->. exfalso. apply N1. apply in_map_iff. exists (g_id m, q1). auto.
      - injection E2 as -> ->. exfalso. apply N1. apply in_map_iff. exists (g_id m, q). auto. }
    subst q'. destruct (finalize m q (s_hp s)) as [h1|] eqn:FI; [|discriminate].
    assert (LF : forall k, live h1 k -> live (s_hp s) k /\ ~ In k (own (Cq, m))).
    { intros k L. unfold own. cbn [snd fst]. rewrite TY. cbn [flat_map]. rewrite app_nil_r, GL.
      apply (live_finalize _ _ _ _ _ FI); [|exact L]. destruct TG as (_ & -> & _ & _). unfold filled_q in FQ. intros C. rewrite C in FQ.
      destruct FQ as (-> & _). reflexivity. }
    destruct (c_soft c).
    + destruct (inject c (soft_ack m) h1) as [(its, h2)|] eqn:J; [|discriminate]. injection E as <- <-. exists its.
      split; [reflexivity|]. split; [reflexivity|]. intros k L. cbn [s_hp] in L.
      assert (X : h2 = h1). { unfold inject, on_wire, acks in J. cbn in J. destruct (g_path m); injection J; auto. }
      subst h2. right. auto.
    + destruct (destroy m h1) as [h2|] eqn:D; [|discriminate]. injection E as <- <-. exists [].
      split; [reflexivity|]. split; [reflexivity|]. intros k L. cbn [s_hp] in L. apply (live_destroy _ _ _ _ D) in L. right. auto.
  - (* GetAck *) apply rdv_ack_live in E. destruct E as (E1 & E2 & E3). exists []. split; [exact E1|]. split; [exact E2|]. intros k L. right.
    split; [auto|]. unfold own. cbn [snd fst]. rewrite TY, EP. intros [].
Qed.

Definition covered (s : pst) : Prop := forall k, live (s_hp s) k -> In k (flat_map own (s_items s) ++ flat_map ownq (s_posted s)).

Lemma in_mid : forall A B (f : A -> list B) l x r k, In k (flat_map f (l ++ x :: r)) <-> In k (f x) \/ In k (flat_map f (l ++ r)).
Proof. intros. rewrite !flat_map_app. cbn [flat_map]. rewrite !in_app_iff. tauto. Qed.

Lemma next_covered : forall s l it r s' its, covered s -> s_items s = l ++ it :: r -> s_items s' = its ++ l ++ r ->
  s_posted s' = s_posted s -> next_ok (s_hp s) (own it) (s_hp s') its -> covered s'.
Proof.
  intros s l it r s' its C E E' EP N k L. rewrite E', EP, flat_map_app, !in_app_iff. destruct (N k L) as [I|(I & J)]; [auto|].
  specialize (C k I). rewrite E, in_app_iff, in_mid in C. tauto.
Qed.

Lemma run_covered : forall user h s, prun c user h s -> rules h -> tidy c h -> covered s.
Proof.
  intros user h s R. induction R as [|h s b x v R IH|h s b d n pa o s' R IH E|h s b d n o s' R IH E|h s l it r o s' R IH E N EM|h s l m r k q j o s' R IH E EQ EM];
    intros RU T.
  - intros k L. now cbn in L.
  - apply (rules_tail [OWrite b x v]) in RU. intros k L. apply IH; [exact RU| |].
    + intros f b' d n src I. apply (T f b' d n src). now right.
    + exact L.
  - assert (C := IH (rules_tail o h RU) (fun f b d n src I => T f b d n src (in_or_app o h _ (or_intror I)))).
    assert (TS : c_vshort c < size_of d n /\ (size_of d n <= c_eager c \/ mcontig (build d) = true)).
    { apply (T (s_flow s) b d n (hp_user (s_hp s) b)). apply in_or_app. left. unfold send in E.
      destruct (match choose c (size_of d n) with Eager0 => _ | Eager1 => _ | Rendezvous => _ end) as [(m, h1)|]; [|discriminate].
      destruct (inject c m h1) as [(its, h2)|]; [|discriminate]. injection E as <- _. destruct (g_prot m); cbn; auto. }
    destruct TS as (T1 & T2). unfold send, choose in E. destruct (Z.leb_spec (size_of d n) (c_vshort c)); [lia|].
    intros k L. destruct (Z.leb_spec (size_of d n) (c_eager c)).
    + destruct (fill c b d n (s_hp s)) as [(p, h1)|] eqn:F; [|discriminate].
      destruct (inject c _ h1) as [(its, h2)|] eqn:J; [|discriminate]. injection E as <- <-. cbn [s_hp s_items s_posted header g_prot] in *.
      assert (X : h2 = h1 /\ flat_map own its = tmp p).
      { unfold inject, on_wire, acks in J. cbn in J. destruct pa; injection J as <- <-; unfold own; cbn; now rewrite !app_nil_r. }
      destruct X as (-> & X). rewrite flat_map_app, X, !in_app_iff. destruct (live_fill _ _ _ _ _ _ _ _ F L) as [L1|L1]; [|auto].
      specialize (C k L1). rewrite in_app_iff in C. tauto.
    + destruct T2 as [T2|T2]; [lia|]. rewrite T2 in E.
      destruct (inject c _ (s_hp s)) as [(its, h2)|] eqn:J; [|discriminate]. injection E as <- <-. cbn [s_hp s_items s_posted header g_prot] in *.
      assert (X : h2 = s_hp s). { unfold inject, on_wire, acks in J. cbn in J. destruct pa; injection J; auto. }
      subst h2. rewrite flat_map_app, !in_app_iff. specialize (C k L). rewrite in_app_iff in C. tauto.
  - assert (C := IH (rules_tail o h RU) (fun f b d n src I => T f b d n src (in_or_app o h _ (or_intror I)))).
    unfold post in E. destruct (if mcontig (build d) then _ else _) as (p, h1) eqn:A. injection E as <- <-.
    intros k L. cbn [s_hp s_items s_posted] in *. rewrite flat_map_app. cbn [flat_map]. rewrite app_nil_r. unfold ownq at 2. cbn [q_recv].
    rewrite !in_app_iff. destruct (mcontig (build d)).
    + injection A as <- <-. specialize (C k L). rewrite in_app_iff in C. tauto.
    + replace h1 with (snd (alloc (c_junk c) (size_of d n) (s_hp s))) in L by (now rewrite A). apply live_alloc in L.
      destruct L as [L|L]; [specialize (C k L); rewrite in_app_iff in C; tauto|]. unfold alloc in A. injection A as <- _. right. right. left. auto.
  - assert (RU0 := rules_tail o h RU). assert (T0 : tidy c h) by (intros f b d n src I; apply (T f b d n src); apply in_or_app; now right).
    assert (C := IH RU0 T0). destruct (run_inv c user h s R RU0) as [M L _].
    assert (OK : okm c h (s_hp s) (s_recvs s) it) by (apply (m_items _ _ _ _ _ _ M); rewrite E; apply in_or_app; right; now left).
    destruct it as (pl, m). unfold moves_on in EM. cbn [fst snd] in *. destruct pl; [| |congruence].
    + destruct (arrive c m (s_hp s)) as [(its, h1)|] eqn:A; [|discriminate]. injection EM as <- <-.
      apply (next_covered s l (Net, m) r _ its C E); auto. eapply arrive_live; eauto.
    + assert (ND : NoDup (map fst (s_recvs s))).
      { eapply getters_nodup; eauto. }
      destruct (handle_live h m (l ++ r) s o s' T0 OK ND EM) as (its & E1 & E2 & NX). apply (next_covered s l (Cq, m) r _ its C E); auto.
  - assert (RU0 := rules_tail o h RU). assert (T0 : tidy c h) by (intros f b d n src I; apply (T f b d n src); apply in_or_app; now right).
    assert (C := IH RU0 T0). destruct (run_inv c user h s R RU0) as [M L _].
    assert (OK : okm c h (s_hp s) (s_recvs s) (Unexp, m)) by (apply (m_items _ _ _ _ _ _ M); rewrite E; apply in_or_app; right; now left).
    assert (OQ : mcontig (build (q_type q)) = true -> tmp (q_recv q) = []).
    { destruct (m_posted _ _ _ _ _ _ M q) as (b2 & d2 & n2 & dst & (TG & -> & _ & _) & _ & IQ); [rewrite EQ; apply in_or_app; right; now left|].
      intros CC. rewrite CC in IQ. now rewrite IQ. }
    destruct OK as (b & d & n & src & S & _ & _ & P & B).
    destruct (tidy_prot _ _ _ _ _ _ _ _ T0 S P B) as (N0 & NR). cbn [snd] in *. unfold body in B. cbn [fst snd] in B.
    unfold matched in EM. destruct (_ <? _); [discriminate|].
    assert (CV : forall s1, s_posted s1 = k ++ j -> (exists its, s_items s1 = its ++ l ++ r /\
      forall x, live (s_hp s1) x -> In x (flat_map own its) \/ (live (s_hp s) x /\ ~ In x (own (Unexp, m)) /\ ~ In x (ownq q))) -> covered s1).
    { intros s1 EP (its & EI & NX) x LX. rewrite EI, EP, flat_map_app, !in_app_iff. destruct (NX x LX) as [I|(I & J1 & J2)]; [auto|].
      specialize (C x I). rewrite E, EQ, in_app_iff, !in_mid in C. tauto. }
    destruct (g_prot m) eqn:EPR; [congruence| |].
    + destruct (memcpy _ _ _ _) as [h1|] eqn:MC; [|discriminate]. destruct (free (g_local m) h1) as [h2|] eqn:FR; [|discriminate].
      destruct (finalize m q h2) as [h3|] eqn:FI; [|discriminate]. destruct (destroy m h3) as [h4|] eqn:D; [|discriminate]. injection EM as <- <-.
      apply CV; [reflexivity|]. exists []. split; [reflexivity|]. intros x LX. right. cbn [s_hp] in LX.
      apply (live_destroy _ _ _ _ D) in LX. apply (live_finalize _ _ _ _ _ FI OQ) in LX. destruct LX as (LX & NQ).
      apply (live_free _ _ _ _ FR) in LX. destruct LX as (LX & NL). apply (live_memcpy _ _ _ _ _ _ MC) in LX. split; [exact LX|]. split; [|exact NQ].
      unfold own. cbn [snd fst]. destruct (g_ty m) eqn:TY; try (destruct B as (B & _); congruence); try contradiction.
      cbn [flat_map]. rewrite app_nil_r. exact NL.
    + destruct (inject c _ (s_hp s)) as [(its, h1)|] eqn:J; [|discriminate]. injection EM as <- <-.
      apply CV; [reflexivity|]. exists its. split; [reflexivity|]. intros x LX. cbn [s_hp] in LX.
      assert (X : h1 = s_hp s /\ flat_map own its = tmp (g_partner m) ++ tmp (q_recv q)).
      { unfold inject in J. cbn [get_request g_ty g_path] in J. unfold own.
        destruct (g_path m) eqn:PA; injection J as <- <-; cbn [flat_map fst snd get_request to_payload g_ty g_path g_remote g_local]; rewrite ?PA; cbn [flat_map]; now rewrite !app_nil_r. }
      destruct X as (-> & ->). unfold ownq. rewrite in_app_iff.
      assert (Y : In x (own (Unexp, m)) -> In x (tmp (g_partner m))).
      { unfold own. cbn [snd fst]. destruct (g_ty m) eqn:TY; try contradiction; try (destruct B as (B & _); congruence); rewrite EPR.
        destruct (g_stage m); cbn [flat_map]; rewrite ?app_nil_r; auto. intros []. }
      destruct (in_dec Nat.eq_dec x (tmp (g_partner m))), (in_dec Nat.eq_dec x (tmp (q_recv q))); auto. right. split; [exact LX|]. split; [intros K; auto|assumption].
Qed.
End Leak.
