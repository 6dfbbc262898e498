(* The SNAPPR output port with any arbitrator that keeps its packets and its credits. *)
From Coq Require Import List ZArith Bool Arith Lia Permutation.
From Verif Require Import PtModel PtProp SpModel SpSpec.
Import ListNotations.
Local Open Scope Z_scope.

(* ---------- lists ---------- *)

Lemma bsum_app : forall l m, bsum (l ++ m) = bsum l + bsum m.
Proof. unfold bsum. induction l as [|x l IH]; intro m; cbn; [reflexivity|]. rewrite IH. lia. Qed.

Lemma on_app : forall l a b, on l (a ++ b) = on l a ++ on l b.
Proof. intros. unfold on. apply filter_app. Qed.

Lemma bsum_perm : forall l m, Permutation l m -> bsum l = bsum m.
Proof. unfold bsum. induction 1; cbn; lia. Qed.

Lemma on_perm : forall l a b, Permutation a b -> Permutation (on l a) (on l b).
Proof.
  intros l a b P. unfold on. induction P; cbn.
  - constructor.
  - destruct (Nat.eqb (s_lane x) l); auto.
  - destruct (Nat.eqb (s_lane x) l), (Nat.eqb (s_lane y) l); auto; apply perm_swap.
  - eapply perm_trans; eauto.
Qed.

Lemma subseq_refl : forall X (l : list X), subseq l l.
Proof. induction l; constructor; auto. Qed.

Lemma subseq_app_r : forall X (l m k : list X), subseq l m -> subseq l (m ++ k).
Proof. induction 1; cbn; constructor; auto. Qed.

Lemma subseq_snoc : forall X (l m : list X) x, subseq l m -> subseq (l ++ [x]) (m ++ [x]).
Proof.
  induction 1; cbn.
  - induction l; cbn; [apply subseq_refl|]. constructor. exact IHl.
  - constructor. exact IHsubseq.
  - apply sub_skip. exact IHsubseq.
Qed.

Lemma subseq_tail : forall X (d l m : list X), subseq (d ++ l) m -> subseq l m.
Proof.
  intros X d l m H. remember (d ++ l) as k eqn:E. revert d l E. induction H; intros d k E.
  - symmetry in E. apply app_eq_nil in E as [_ ->]. constructor.
  - destruct d as [|y d]; cbn in E.
    + subst k. constructor. exact H.
    + injection E as -> ->. apply sub_skip. eapply IHsubseq. reflexivity.
  - apply sub_skip. eapply IHsubseq. exact E.
Qed.

Lemma spaced_snoc : forall tts flit l t p,
  spaced tts flit l -> (forall t0 p0 k, l = k ++ [(t0, p0)] -> t0 + tts (s_bytes p0) + flit <= t) ->
  spaced tts flit (l ++ [(t, p)]).
Proof.
  intros tts flit l t p S L a x y b E.
  destruct (exists_last (l := y :: b)) as [b' [z Eb]]; [discriminate|].
  destruct b' as [|y' b'].
  - cbn in Eb. injection Eb as -> ->.
    change (x :: [z]) with ([x] ++ [z]) in E. rewrite app_assoc in E.
    apply app_inj_tail in E as [E1 E2]. subst z. destruct x as [t0 p0]. cbn. eapply L. exact E1.
  - cbn in Eb. injection Eb as <- ->. cbn in E.
    change (x :: y :: b' ++ [z]) with ((x :: y :: b') ++ [z]) in E. rewrite app_assoc in E.
    apply app_inj_tail in E as [E1 _]. eapply S. exact E1.
Qed.

(* ---------- what an arbitrator has to do ---------- *)

(* held: its packets; purse: the credits of a lane that have not left with a packet;
   waiting: the packets of a lane for which no credits were set aside, in order *)
Record lawful (A : arbitrator) (n : nat) (ok : arb_state A -> Prop) (held : arb_state A -> list spkt)
    (purse : arb_state A -> nat -> Z) (waiting : arb_state A -> nat -> list spkt) : Prop := {
  l_insert : forall a t p, ok a -> (s_lane p < n)%nat -> 0 <= s_bytes p ->
    ok (arb_insert A t p a) /\ Permutation (held (arb_insert A t p a)) (p :: held a) /\
    (forall l, purse (arb_insert A t p a) l = purse a l) /\
    (forall l, waiting (arb_insert A t p a) l = waiting a l \/
       s_lane p = l /\ waiting (arb_insert A t p a) l = waiting a l ++ [p]);
  l_credit : forall a l0 c, ok a -> (l0 < n)%nat -> 0 <= c ->
    ok (arb_credit A l0 c a) /\ Permutation (held (arb_credit A l0 c a)) (held a) /\
    (forall l, purse (arb_credit A l0 c a) l = purse a l + if Nat.eqb l0 l then c else 0) /\
    (forall l, exists d, waiting a l = d ++ waiting (arb_credit A l0 c a) l);
  l_pop : forall a t tie, ok a -> arb_empty A a = false ->
    exists p a', arb_pop A t tie a = Some (p, a') /\ ok a' /\ (s_lane p < n)%nat /\ 0 <= s_bytes p /\
    Permutation (held a) (p :: held a') /\
    (forall l, purse a' l = purse a l - if Nat.eqb (s_lane p) l then s_bytes p else 0) /\
    (forall l, exists d, waiting a l = d ++ waiting a' l);
  l_purse : forall a l, ok a -> 0 <= purse a l;
  l_empty : forall a, ok a -> arb_empty A a = true ->
    forall l, Permutation (on l (held a)) (waiting a l) /\
      forall q r, waiting a l = q :: r -> purse a l < s_bytes q
}.

Section Port.
Variable A : arbitrator.
Variable n : nat.
Variable ok : arb_state A -> Prop.
Variable held : arb_state A -> list spkt.
Variable purse : arb_state A -> nat -> Z.
Variable waiting : arb_state A -> nat -> list spkt.
Hypothesis L : lawful A n ok held purse waiting.
Variable tts : Z -> Z.
Variable flit : Z.
Variable flow : bool.
Hypothesis tts_pos : forall z, 0 <= z -> 0 <= tts z.
Hypothesis flit_pos : 0 <= flit.

Notation prt := (port A).

(* tr: packets given; cr: credits given, with the initial ones *)
Record core (now : Z) (o : prt) (tr : list spkt) (cr : nat -> Z) (w : Z) : Prop := {
  c_ok : ok (o_arb o);
  c_abort : o_aborted o = false;
  c_total : o_total o = Z.of_nat (length (held (o_arb o)));
  c_all : Permutation tr (sent o ++ held (o_arb o));
  c_purse : forall l, purse (o_arb o) l = cr l - if flow then bsum (on l (sent o)) else 0;
  c_times : o_active o + o_idle o + o_stall o + flit * Z.of_nat (length (sends o)) = o_free o;
  c_free : 0 <= o_free o;
  c_now : 0 <= now;
  c_stall : o_stall_start o = 0 \/ o_free o <= o_stall_start o <= now /\ o_total o <> 0;
  c_spaced : spaced tts flit (sends o);
  c_last : forall k t p, sends o = k ++ [(t, p)] -> t + tts (s_bytes p) + flit = o_free o;
  c_sub : forall l, subseq (waiting (o_arb o) l) (on l tr);
  c_waited : o_stall o + (if o_stall_start o =? 0 then 0 else now - o_stall_start o) <= w;
  c_nonneg : 0 <= o_idle o /\ 0 <= o_stall o
}.

Record inv (now : Z) (o : prt) (tr : list spkt) (cr : nat -> Z) (w : Z) : Prop := {
  i_core : core now o tr cr w;
  i_idle : o_sched o = None -> arb_empty A (o_arb o) = true;
  i_sched : forall u, o_sched o = Some u -> u = o_free o /\ o_total o <> 0 /\ now <= u /\ o_stall_start o = 0
}.

Lemma arbitrate_inv : forall now tie o tr cr w, core now o tr cr w -> o_total o <> 0 -> o_free o <= now ->
  inv now (arbitrate A tts flit flow now tie o) tr cr w.
Proof.
  intros now tie o tr cr w C T F. unfold arbitrate.
  destruct (o_total o =? 0) eqn:E1; [lia|]. destruct (now <? o_free o) eqn:E2; [lia|]. cbn [orb o_arb].
  destruct (arb_empty A (o_arb o)) eqn:EM.
  - split.
    + destruct C; split; cbn; auto.
      * destruct (o_stall_start o =? 0) eqn:S0; [right; lia|].
        destruct c_stall0 as [S1|S1]; [lia|]. auto.
      * destruct (o_stall_start o =? 0) eqn:S0; [|rewrite S0; exact c_waited0].
        destruct (now =? 0); lia.
    + cbn. auto.
    + cbn. discriminate.
  - destruct (l_pop _ _ _ _ _ _ L (o_arb o) now tie (c_ok _ _ _ _ _ C) EM)
      as [p [a [PE [OK [PL [PB [PH [PU PW]]]]]]]].
    cbn [o_arb]. rewrite PE. unfold send. cbn [o_free]. rewrite E2. cbn [o_stall_start o_arb o_total o_sched o_active o_idle o_stall o_sent o_aborted].
    set (d_stall := if negb (o_stall_start o =? 0) then now - o_stall_start o else 0).
    set (d_idle := if negb (o_stall_start o =? 0) then if o_free o <? o_stall_start o then o_stall_start o - o_free o else 0
                   else if o_free o <? now then now - o_free o else 0).
    set (a' := if flow then a else arb_credit A (s_lane p) (s_bytes p) a).
    assert (A1 : ok a' /\ Permutation (held a') (held a) /\
      (forall l, purse a' l = purse (o_arb o) l - if flow then (if Nat.eqb (s_lane p) l then s_bytes p else 0) else 0) /\
      (forall l, exists d, waiting (o_arb o) l = d ++ waiting a' l)).
    { unfold a'. destruct flow.
      - repeat split; auto.
      - destruct (l_credit _ _ _ _ _ _ L a (s_lane p) (s_bytes p) OK PL PB) as [B1 [B2 [B3 B4]]].
        split; [exact B1|]. split; [exact B2|]. split.
        + intro l. rewrite B3, PU. lia.
        + intro l. destruct (PW l) as [d1 D1]. destruct (B4 l) as [d2 D2]. exists (d1 ++ d2).
          rewrite D1, D2, app_assoc. reflexivity. }
    clearbody a'. destruct A1 as [OK' [PH' [PU' PW']]].
    destruct C as [k1 k2 k3 k4 k5 k6 k7 k8 k9 k10 k11 k12 k13 k14].
    assert (LEN : length (held (o_arb o)) = S (length (held a'))).
    { rewrite (Permutation_length PH). cbn. rewrite (Permutation_length PH'). reflexivity. }
    assert (DS : d_stall + d_idle = now - o_free o /\ 0 <= d_stall /\ 0 <= d_idle).
    { unfold d_stall, d_idle. destruct (o_stall_start o =? 0) eqn:S0; cbn [negb].
      - destruct (o_free o <? now) eqn:?; lia.
      - destruct k9 as [?|[? ?]]; [lia|]. destruct (o_free o <? o_stall_start o) eqn:?; lia. }
    pose proof (tts_pos _ PB) as TP.
    set (o1 := {| o_arb := a' |}).
    assert (K : core now o1 tr cr w).
    { assert (SN : sends o1 = sends o ++ [(now, p)]) by reflexivity.
      assert (ST : sent o1 = sent o ++ [p]) by (unfold sent; rewrite SN, map_app; reflexivity).
      split; cbn -[sent sends]; fold o1; auto; try lia.
      - rewrite ST, <- app_assoc. cbn. rewrite PH'. rewrite <- PH. exact k4.
      - intro l. rewrite PU', k5, ST, on_app, bsum_app. unfold on at 3. cbn. destruct flow; [|lia].
        destruct (Nat.eqb (s_lane p) l); cbn; lia.
      - rewrite SN, app_length. cbn [length]. destruct DS as [DS _].
        rewrite Nat2Z.inj_add. cbn [Z.of_nat Pos.of_succ_nat]. rewrite Z.mul_add_distr_l. lia.
      - left. destruct (o_stall_start o =? 0) eqn:S0; cbn; lia.
      - rewrite SN. apply spaced_snoc; [exact k10|]. intros t0 p0 k E. rewrite (k11 _ _ _ E). lia.
      - intros k t p0 E. rewrite SN in E. apply app_inj_tail in E as [_ E]. injection E as <- <-. reflexivity.
      - intro l. destruct (PW' l) as [d D]. apply (subseq_tail _ d). rewrite <- D. apply k12.
      - unfold d_stall. destruct (o_stall_start o =? 0) eqn:S0; cbn [negb]; rewrite ?S0; cbn; lia. }
    change (arb_empty A a') with (arb_empty A (o_arb o1)).
    destruct (arb_empty A (o_arb o1)) eqn:E3.
    + split; [exact K| |cbn; discriminate]. intros _. exact E3.
    + unfold schedule. cbn [o1 o_sched]. cbn [o_total].
      assert (NZ : o_total o - 1 <> 0).
      { intro Z0. assert (HN : held a' = []) by (destruct (held a'); [reflexivity|cbn in LEN; lia]).
        destruct (l_pop _ _ _ _ _ _ L a' now tie OK' E3) as [q [b [_ [_ [_ [_ [Q _]]]]]]].
        rewrite HN in Q. apply Permutation_nil in Q. discriminate. }
      change (o_total o1) with (o_total o - 1). destruct (o_total o - 1 =? 0) eqn:E4; [lia|].
      split.
      * destruct K; split; auto. 
      * cbn. discriminate.
      * cbn. intros u U. injection U as <-. repeat split; auto; [lia|].
        destruct (o_stall_start o =? 0) eqn:S0; cbn; lia.
Qed.

(* Time passes. *)
Lemma core_later : forall now t o tr cr w, core now o tr cr w -> now <= t -> 
  core t o tr cr (w + if o_total o =? 0 then 0 else Z.max 0 (t - Z.max now (o_free o))).
Proof.
  intros now t o tr cr w [] LE. split; auto; try lia.
  destruct (o_stall_start o =? 0) eqn:S0.
  - destruct (o_total o =? 0); lia.
  - destruct c_stall0 as [?|[? ?]]; [lia|]. destruct (o_total o =? 0) eqn:?; lia.
Qed.

Lemma request_inv : forall now tie o tr cr w, core now o tr cr w -> o_total o <> 0 -> o_sched o = None ->
  inv now (request A tts flit flow now tie o) tr cr w.
Proof.
  intros now tie o tr cr w C T S. unfold request. rewrite S.
  destruct (o_total o =? 0) eqn:E1; [lia|]. destruct (now <? o_free o) eqn:E2.
  - unfold schedule. rewrite S, E1. split.
    + destruct C; split; auto.
    + cbn. discriminate.
    + cbn. intros u U. injection U as <-. repeat split; auto; [lia|].
      destruct (c_stall _ _ _ _ _ C) as [?|[? ?]]; [auto|lia].
  - apply arbitrate_inv; auto. lia.
Qed.

Definition add_cr (cr : nat -> Z) (l0 : nat) (c : Z) (l : nat) : Z := cr l + if Nat.eqb l0 l then c else 0.

Lemma step_inv : forall now t tie e o o' tr cr w, inv now o tr cr w -> now <= t -> sane_ev n e ->
  port_step A tts flit flow t tie e o = Some o' ->
  inv t o' (tr ++ match e with Try p => [p] | _ => [] end)
    (match e with Credit l c => add_cr cr l c | _ => cr end)
    (w + if o_total o =? 0 then 0 else Z.max 0 (t - Z.max now (o_free o))).
Proof.
  intros now t tie e o o' tr cr w [C I S] LE SE ST.
  pose proof (core_later _ t _ _ _ _ C LE) as C1. set (w' := w + _) in *. clearbody w'.
  destruct e as [p|l c|]; cbn in ST, SE.
  - destruct (on_time A t o) eqn:OT; [|discriminate]. injection ST as <-.
    unfold try_send. destruct SE as [SL SB].
    destruct (l_insert _ _ _ _ _ _ L (o_arb o) t p (c_ok _ _ _ _ _ C) SL SB) as [B1 [B2 [B3 B4]]].
    set (o1 := {| o_arb := _ |}).
    assert (K : core t o1 (tr ++ [p]) cr w').
    { destruct C1 as [k1 k2 k3 k4 k5 k6 k7 k8 k9 k10 k11 k12 k13 k14].
      split; cbn -[sent sends]; fold o1; auto.
      - rewrite (Permutation_length B2). cbn [length]. lia.
      - change (sent o1) with (sent o). apply (Permutation_trans (l' := p :: tr)); [apply Permutation_sym, Permutation_cons_append|].
        apply (Permutation_trans (l' := p :: sent o ++ held (o_arb o))); [constructor; exact k4|].
        apply (Permutation_trans (l' := sent o ++ p :: held (o_arb o))); [apply Permutation_middle|].
        apply Permutation_app_head, Permutation_sym, B2.
      - intro l. rewrite B3. apply k5.
      - destruct k9 as [?|[? ?]]; [auto|right]. split; [lia|]. pose proof (Zle_0_nat (length (held (o_arb o)))). lia.
      - intro l. rewrite on_app. destruct (B4 l) as [-> | [E ->]].
        + apply subseq_app_r. apply k12.
        + unfold on at 2. cbn. rewrite E, Nat.eqb_refl. apply subseq_snoc. apply k12. }
    assert (T : o_total o1 <> 0) by (cbn; pose proof (c_total _ _ _ _ _ C); lia).
    change (o_sched o1) with (o_sched o). destruct (o_sched o) as [u|] eqn:OS.
    + split; [exact K|cbn; discriminate|].
      cbn. intros u' U. injection U as <-. destruct (S u eq_refl) as [S1 [S2 [S3 S4]]].
      unfold on_time in OT. rewrite OS in OT. repeat split; auto. lia.
    + apply request_inv; auto.
  - destruct (on_time A t o) eqn:OT; [|discriminate]. injection ST as <-.
    unfold take_credit. destruct SE as [SL SB].
    destruct (l_credit _ _ _ _ _ _ L (o_arb o) l c (c_ok _ _ _ _ _ C) SL SB) as [B1 [B2 [B3 B4]]].
    set (o1 := {| o_arb := _ |}). rewrite app_nil_r.
    assert (K : core t o1 tr (add_cr cr l c) w').
    { destruct C1 as [k1 k2 k3 k4 k5 k6 k7 k8 k9 k10 k11 k12 k13 k14].
      split; cbn -[sent sends]; fold o1; auto.
      - rewrite (Permutation_length B2). auto.
      - apply (Permutation_trans k4). apply Permutation_app_head, Permutation_sym, B2.
      - intro m. rewrite B3, k5. unfold add_cr. change (sent o1) with (sent o). lia.
      - intro m. destruct (B4 m) as [d D]. apply (subseq_tail _ d). rewrite <- D. apply k12. }
    change (o_sched o1) with (o_sched o). change (o_total o1) with (o_total o).
    destruct (o_sched o) as [u|] eqn:OS.
    + split; [exact K|cbn; discriminate|].
      cbn. intros u' U. injection U as <-. destruct (S u eq_refl) as [S1 [S2 [S3 S4]]].
      unfold on_time in OT. rewrite OS in OT. repeat split; auto. lia.
    + destruct (o_total o =? 0) eqn:TZ.
      * split; [exact K| |cbn; discriminate]. intros _.
        destruct (arb_empty A (o_arb o1)) eqn:E3; [reflexivity|exfalso].
        destruct (l_pop _ _ _ _ _ _ L (o_arb o1) t tie (c_ok _ _ _ _ _ K) E3) as [q [b [_ [_ [_ [_ [Q _]]]]]]].
        pose proof (c_total _ _ _ _ _ K) as T. cbn [o1 o_total] in T. rewrite (Permutation_length Q) in T.
        cbn [length] in T. lia.
      * apply request_inv; auto. cbn. lia.
  - destruct (o_sched o) as [u|] eqn:OS; [|discriminate]. destruct (t =? u) eqn:TU; [|discriminate].
    injection ST as <-. rewrite app_nil_r. destruct (S u eq_refl) as [S1 [S2 [S3 S4]]].
    apply arbitrate_inv; auto. lia.
Qed.

Lemma run_inv : forall es now o tr cr w now' o', inv now o tr cr w -> sane n es ->
  port_run A tts flit flow now o es = Some (now', o') ->
  inv now' o' (tr ++ tried es) (fun l => cr l + credited l es) (w + waited tts flit flow now o es).
Proof.
  induction es as [|[[t tie] e] es IH]; intros now o tr cr w now' o' I SN R.
  - cbn in R. injection R as <- <-. cbn. rewrite app_nil_r, Z.add_0_r.
    destruct I as [C I S]. split; auto. destruct C; split; auto. intro l. rewrite c_purse0. lia.
  - cbn [port_run] in R. destruct (t <? now) eqn:LT; [discriminate|].
    destruct (port_step A tts flit flow t tie e o) as [o1|] eqn:ST; [|discriminate].
    inversion SN as [|? ? SE SN']; subst. cbn in SE.
    assert (LE : now <= t) by lia.
    pose proof (IH _ _ _ _ _ _ _ (step_inv _ _ _ _ _ _ _ _ _ I LE SE ST) SN' R) as J.
    cbn [waited]. rewrite ST. cbn [tried flat_map snd]. rewrite <- app_assoc in J.
    fold (tried es). rewrite Z.add_assoc. destruct J as [C J S]. split; auto.
    destruct C; split; auto. intro l. rewrite c_purse0. destruct e as [p|l0 c|]; cbn; fold (credited l es); unfold add_cr; try lia.
Qed.

Lemma init_inv : forall a cr, ok a -> held a = [] -> (forall l, purse a l = cr l) ->
  (forall l, waiting a l = []) -> inv 0 (port_init A a) [] cr 0.
Proof.
  intros a cr OK H P W. split.
  - split; cbn; auto; try lia.
    + rewrite H. reflexivity.
    + rewrite H. constructor.
    + intro l. rewrite P. destruct flow; cbn; lia.
    + intros b x y c E. destruct b; discriminate.
    + intros k t p E. destruct k; discriminate.
    + intro l. rewrite W. constructor.
  - intros _. cbn. destruct (arb_empty A a) eqn:E; [reflexivity|].
    destruct (l_pop _ _ _ _ _ _ L a 0 0%nat OK E) as [q [b [_ [_ [_ [_ [Q _]]]]]]].
    rewrite H in Q. apply Permutation_nil in Q. discriminate.
  - cbn. discriminate.
Qed.
End Port.
