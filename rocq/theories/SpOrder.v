(* The order of the packets of one lane at a SNAPPR output port. *)
From Coq Require Import List ZArith Bool Arith Lia Permutation.
From Verif Require Import PtModel PtProp SpModel SpSpec SpProof SpArb SpWrr.
Import ListNotations.
Local Open Scope Z_scope.

(* What one event does to the arbitrator and to the packets sent *)
Lemma step_arb : forall A tts flit flow t tie e (o o' : port A),
  port_step A tts flit flow t tie e o = Some o' ->
  let a1 := match e with
            | Try p => arb_insert A t p (o_arb o)
            | Credit l n => arb_credit A l n (o_arb o)
            | Arb => o_arb o
            end in
  o_arb o' = a1 /\ o_sent o' = o_sent o \/
  (exists p a2, arb_pop A t tie a1 = Some (p, a2) /\ arb_empty A a1 = false) /\ o_aborted o' = true \/
  exists p a2, arb_pop A t tie a1 = Some (p, a2) /\ arb_empty A a1 = false /\
    o_sent o' = (t, p) :: o_sent o /\
    o_arb o' = if flow then a2 else arb_credit A (s_lane p) (s_bytes p) a2.
Proof.
  intros A tts flit flow t tie e o o' H.
  assert (SC : forall x : port A, o_arb (schedule A x) = o_arb x /\ o_sent (schedule A x) = o_sent x /\
     (o_aborted x = true -> o_aborted (schedule A x) = true)).
  { intro x. unfold schedule. destruct (o_sched x); [cbn; auto|]. destruct (o_total x =? 0); cbn; auto. }
  assert (AR : forall x : port A, let y := arbitrate A tts flit flow t tie x in
    o_arb y = o_arb x /\ o_sent y = o_sent x \/
    (exists p a2, arb_pop A t tie (o_arb x) = Some (p, a2) /\ arb_empty A (o_arb x) = false) /\ o_aborted y = true \/
    exists p a2, arb_pop A t tie (o_arb x) = Some (p, a2) /\ arb_empty A (o_arb x) = false /\
      o_sent y = (t, p) :: o_sent x /\ o_arb y = if flow then a2 else arb_credit A (s_lane p) (s_bytes p) a2).
  { intro x. cbn zeta. unfold arbitrate. destruct ((o_total x =? 0) || (t <? o_free x)); [left; cbn; auto|].
    destruct (arb_empty A (o_arb x)) eqn:E; [left; cbn; auto|]. cbn [o_arb].
    destruct (arb_pop A t tie (o_arb x)) as [[p a2]|] eqn:P; [|left; cbn; auto]. right.
    unfold send. cbn [o_free o_arb]. destruct (t <? o_free x); [left; split; [eauto|reflexivity]|]. right.
    exists p, a2. split; [reflexivity|]. split; [reflexivity|]. cbn [o_arb]. 
    set (b := if flow then a2 else arb_credit A (s_lane p) (s_bytes p) a2).
    destruct (arb_empty A b); [cbn; auto|].
    destruct (SC {| o_arb := b; o_total := o_total x - 1; o_sched := None; o_free := t + tts (s_bytes p) + flit;
      o_stall_start := if negb (o_stall_start x =? 0) then 0 else o_stall_start x;
      o_active := o_active x + tts (s_bytes p);
      o_idle := o_idle x + (if negb (o_stall_start x =? 0) then if o_free x <? o_stall_start x then o_stall_start x - o_free x else 0
                   else if o_free x <? t then t - o_free x else 0);
      o_stall := o_stall x + (if negb (o_stall_start x =? 0) then t - o_stall_start x else 0);
      o_sent := (t, p) :: o_sent x; o_aborted := o_aborted x |}) as [S1 [S2 _]].
    cbn in S1, S2 |- *. split; [exact S2|exact S1]. }
  assert (RQ : forall x : port A, let y := request A tts flit flow t tie x in
    o_arb y = o_arb x /\ o_sent y = o_sent x \/
    (exists p a2, arb_pop A t tie (o_arb x) = Some (p, a2) /\ arb_empty A (o_arb x) = false) /\ o_aborted y = true \/
    exists p a2, arb_pop A t tie (o_arb x) = Some (p, a2) /\ arb_empty A (o_arb x) = false /\
      o_sent y = (t, p) :: o_sent x /\ o_arb y = if flow then a2 else arb_credit A (s_lane p) (s_bytes p) a2).
  { intro x. cbn zeta. unfold request. destruct (o_sched x); [left; cbn; auto|].
    destruct (o_total x =? 0); [left; cbn; auto|]. destruct (t <? o_free x); [left|apply AR].
    destruct (SC x) as [? [? _]]. auto. }
  destruct e as [p|l n|]; cbn in H |- *.
  - destruct (on_time A t o); [|discriminate]. injection H as <-. unfold try_send. cbn [o_sched].
    destruct (o_sched o); [left; cbn; auto|]. apply (RQ {| o_arb := _ |}).
  - destruct (on_time A t o); [|discriminate]. injection H as <-. unfold take_credit. cbn [o_sched o_total].
    destruct (o_sched o); [left; cbn; auto|]. destruct (o_total o =? 0); [left; cbn; auto|]. apply (RQ {| o_arb := _ |}).
  - destruct (o_sched o); [|discriminate]. destruct (t =? z); [|discriminate]. injection H as <-. apply AR.
Qed.

(* An arbitrator with an order on each lane *)
Record orderly (A : arbitrator) (n : nat) (good : spkt -> Prop) (ok : arb_state A -> Prop)
    (order : arb_state A -> nat -> list spkt) : Prop := {
  ord_insert : forall a t p, ok a -> (s_lane p < n)%nat -> 0 <= s_bytes p -> good p ->
    ok (arb_insert A t p a) /\ forall l, order (arb_insert A t p a) l = order a l ++ on l [p];
  ord_credit : forall a l0 c, ok a -> (l0 < n)%nat -> 0 <= c ->
    ok (arb_credit A l0 c a) /\ forall l, order (arb_credit A l0 c a) l = order a l;
  ord_pop : forall a t tie p a', ok a -> arb_empty A a = false -> arb_pop A t tie a = Some (p, a') ->
    ok a' /\ (s_lane p < n)%nat /\ 0 <= s_bytes p /\ forall l, order a l = on l [p] ++ order a' l
}.

Lemma run_order : forall A n good ok order, orderly A n good ok order ->
  forall tts flit flow es now (o : port A) now' o', ok (o_arb o) -> sane n es ->
  Forall good (tried es) -> port_run A tts flit flow now o es = Some (now', o') -> o_aborted o' = false ->
  (forall t tie e x y, port_step A tts flit flow t tie e x = Some y -> o_aborted x = true -> o_aborted y = true) ->
  forall tr, (forall l, on l tr = on l (sent o) ++ order (o_arb o) l) ->
  forall l, on l (tr ++ tried es) = on l (sent o') ++ order (o_arb o') l.
Proof.
  intros A n good ok order OR tts flit flow. induction es as [|[[t tie] e] es IH];
    intros now o now' o' O SN G R NA MONO tr E l.
  - cbn in R. injection R as <- <-. cbn. rewrite app_nil_r. apply E.
  - cbn [port_run] in R. destruct (t <? now); [discriminate|].
    destruct (port_step A tts flit flow t tie e o) as [o1|] eqn:ST; [|discriminate].
    inversion SN as [|? ? SE SN']; subst. cbn in SE.
    assert (NA1 : o_aborted o1 = false).
    { destruct (o_aborted o1) eqn:AB; [|reflexivity]. exfalso. clear -AB NA R MONO.
      revert t o1 AB R. induction es as [|[[t2 tie2] e2] es IH]; intros t o1 AB R; cbn [port_run] in R.
      - injection R as <- <-. congruence.
      - destruct (t2 <? t); [discriminate|].
        destruct (port_step A tts flit flow t2 tie2 e2 o1) as [o2|] eqn:S2; [|discriminate].
        eapply IH; [|exact R]. eapply MONO; eauto. }
    assert (B : let a1 := match e with Try p => arb_insert A t p (o_arb o) | Credit l n => arb_credit A l n (o_arb o) | Arb => o_arb o end in
      ok a1 /\ forall m, order a1 m = order (o_arb o) m ++ match e with Try p => on m [p] | _ => [] end).
    { destruct e as [p|l0 c|]; cbn zeta.
      - destruct SE. apply (ord_insert _ _ _ _ _ OR); auto. cbn in G. inversion G. assumption.
      - destruct SE. destruct (ord_credit _ _ _ _ _ OR (o_arb o) l0 c) as [X Y]; auto. split; [exact X|].
        intro m. rewrite Y, app_nil_r. reflexivity.
      - split; [exact O|]. intro m. rewrite app_nil_r. reflexivity. }
    cbn zeta in B. pose proof (step_arb _ _ _ _ _ _ _ _ _ ST) as SA. cbn zeta in SA.
    set (a1 := match e with Try p => _ | _ => _ end) in *. destruct B as [B1 B2].
    assert (TR : tried ((t, tie, e) :: es) = match e with Try p => [p] | _ => [] end ++ tried es) by (destruct e; reflexivity).
    rewrite TR in G |- *. rewrite app_assoc.
    assert (ON : forall m, on m (tr ++ match e with Try p => [p] | _ => [] end) = on m (sent o) ++ order a1 m).
    { intro m. rewrite on_app, E, B2, <- app_assoc. destruct e; reflexivity. }
    destruct SA as [[S1 S2]|[[_ S2]|[p [a2 [S1 [S2 [S3 S4]]]]]]].
    + apply (IH t o1 now' o'); auto.
      * rewrite S1. exact B1.
      * apply Forall_app in G. apply G.
      * intro m. unfold sent, sends. rewrite S1, S2. apply ON.
    + congruence.
    + destruct (ord_pop _ _ _ _ _ OR a1 t tie p a2 B1 S2 S1) as [P1 [P2 [P3 P4]]].
      assert (K : ok (o_arb o1) /\ forall m, order (o_arb o1) m = order a2 m).
      { rewrite S4. destruct flow; [auto|]. apply (ord_credit _ _ _ _ _ OR a2 (s_lane p) (s_bytes p) P1 P2 P3). }
      destruct K as [K1 K2].
      apply (IH t o1 now' o'); auto.
      * apply Forall_app in G. apply G.
      * intro m. unfold sent, sends. rewrite S3. cbn [rev]. rewrite map_app, K2. cbn [map snd].
        fold (sends o). fold (sent o). rewrite ON, P4, (on_app m (sent o) [p]), app_assoc. reflexivity.
Qed.

Lemma abort_stays : forall A tts flit flow t tie e (x y : port A),
  port_step A tts flit flow t tie e x = Some y -> o_aborted x = true -> o_aborted y = true.
Proof.
  intros A tts flit flow t tie e x y H AB.
  assert (SC : forall z : port A, o_aborted z = true -> o_aborted (schedule A z) = true).
  { intros z Z. unfold schedule. destruct (o_sched z); [reflexivity|]. destruct (o_total z =? 0); cbn; auto. }
  assert (AR : forall z : port A, o_aborted z = true -> o_aborted (arbitrate A tts flit flow t tie z) = true).
  { intros z Z. unfold arbitrate. destruct ((o_total z =? 0) || (t <? o_free z)); [reflexivity|].
    destruct (arb_empty A (o_arb z)); [cbn; auto|]. cbn [o_arb].
    destruct (arb_pop A t tie (o_arb z)) as [[p a2]|]; [|reflexivity].
    unfold send. cbn [o_free]. destruct (t <? o_free z); [reflexivity|]. cbn [o_arb].
    destruct (arb_empty A (if flow then a2 else arb_credit A (s_lane p) (s_bytes p) a2)); [cbn; exact Z|].
    apply SC. cbn. exact Z. }
  assert (RQ : forall z : port A, o_aborted z = true -> o_aborted (request A tts flit flow t tie z) = true).
  { intros z Z. unfold request. destruct (o_sched z); [reflexivity|]. destruct (o_total z =? 0); [reflexivity|].
    destruct (t <? o_free z); auto. }
  destruct e as [p|l n|]; cbn in H.
  - destruct (on_time A t x); [|discriminate]. injection H as <-. unfold try_send. cbn [o_sched].
    destruct (o_sched x); [cbn; auto|]. apply RQ. exact AB.
  - destruct (on_time A t x); [|discriminate]. injection H as <-. unfold take_credit. cbn [o_sched o_total].
    destruct (o_sched x); [cbn; auto|]. destruct (o_total x =? 0); [cbn; auto|]. apply RQ. exact AB.
  - destruct (o_sched x); [|discriminate]. destruct (t =? z); [|discriminate]. injection H as <-. apply AR. exact AB.
Qed.

(* ---------- weighted round robin ---------- *)

Lemma wrr_orderly : forall n, orderly wrr_arb n (fun _ => True) (wrr_ok n) (fun a l => wl_pending (wl a l)).
Proof.
  intro n. pose proof (wrr_lawful n) as L.
  split; cbn [wrr_arb arb_state arb_insert arb_credit arb_pop arb_empty].
  - intros a t p O LN PB _. split; [apply (l_insert _ _ _ _ _ _ L a t p O LN PB)|]. intro l.
    pose proof (insert_changes n t p a O LN) as H. cbn zeta in H.
    assert (K : exists c st m, changes a (wrr_insert t p a) (s_lane p) (wl_pending (wl a (s_lane p)) ++ [p]) c st m).
    { destruct (wl_pending (wl a (s_lane p))) as [|x q]; [|eauto]. destruct (_ <=? _); eauto. }
    destruct K as [c [st [m K]]]. rewrite on_one. destruct (Nat.eqb_spec (s_lane p) l) as [<-|NE].
    + apply (ch_pend _ _ _ _ _ _ _ K).
    + rewrite app_nil_r. apply (ch_other _ _ _ _ _ _ _ K l). congruence.
  - intros a l0 c O LN C. split; [apply (l_credit _ _ _ _ _ _ L a l0 c O LN C)|]. intro l.
    destruct (credit_changes n l0 c a O LN C) as [[_ [p [r [_ [_ K]]]]]|[_ K]].
    + destruct (Nat.eq_dec l l0) as [->|NE]; [apply (ch_pend _ _ _ _ _ _ _ K)|apply (ch_other _ _ _ _ _ _ _ K l NE)].
    + destruct (Nat.eq_dec l l0) as [->|NE]; [apply (ch_pend _ _ _ _ _ _ _ K)|apply (ch_other _ _ _ _ _ _ _ K l NE)].
  - intros a t tie p a' O E H.
    destruct (l_pop _ _ _ _ _ _ L a t tie O E) as [p0 [a0 [H0 [O' [PL [PB _]]]]]].
    cbn in H0. rewrite H in H0. injection H0 as <- <-. split; [exact O'|]. split; [exact PL|]. split; [exact PB|].
    destruct (pop_changes n t tie a O E) as [l0 [p1 [r [a1 [H1 [H2 [H3 [H4 H5]]]]]]]].
    rewrite H in H1. injection H1 as <- <-.
    assert (SL : s_lane p = l0).
    { pose proof (wo_lane _ _ O l0) as [_ [B _]]. rewrite H4 in B. apply (B p). left. reflexivity. }
    assert (K : exists c st m, changes a a' l0 r c st m).
    { destruct r as [|x q]; [eauto|]. destruct (_ <=? _); eauto. }
    destruct K as [c [st [m K]]]. intro l. rewrite on_one, SL. destruct (Nat.eqb_spec l0 l) as [<-|NE].
    + rewrite H4, (ch_pend _ _ _ _ _ _ _ K). reflexivity.
    + symmetry. apply (ch_other _ _ _ _ _ _ _ K l). congruence.
Qed.

(* ---------- first in, first out ---------- *)

Definition fifo_order (a : fifo) (l : nat) : list spkt := on l (f_queue a) ++ fl_pending (fl a l).

Lemma fifo_orderly : forall n (size : nat -> Z),
  orderly fifo_arb n (fun p => s_bytes p = size (s_lane p))
    (fun a => fifo_ok n a /\ forall l p, In p (fl_pending (fl a l)) -> s_bytes p = size l) fifo_order.
Proof.
  intros n size. pose proof (fifo_lawful n) as L.
  split; cbn [fifo_arb arb_state arb_insert arb_credit arb_pop arb_empty].
  - intros a t p [O SZ] LN PB G. pose proof (l_insert _ _ _ _ _ _ L a t p O LN PB) as [O' _].
    assert (LL : (s_lane p < length (f_vls a))%nat) by (rewrite (fo_len _ _ O); exact LN).
    cbn in O'. unfold fifo_insert in *. destruct (Z.leb_spec (s_bytes p) (fl_credits (fl a (s_lane p)))) as [LE|GT].
    + set (v' := {| fl_credits := _ |}) in *. set (a' := {| f_vls := _ |}) in *.
      assert (F : forall m, fl a' m = if (m =? s_lane p)%nat then v' else fl a m)
        by (intro m; exact (fl_set a (s_lane p) v' m LL)).
      assert (P : forall m, fl_pending (fl a' m) = fl_pending (fl a m))
        by (intro m; rewrite F; destruct (Nat.eqb_spec m (s_lane p)) as [->|]; reflexivity).
      split; [split; [exact O'|intros l q; rewrite P; apply SZ]|].
      intro l. unfold fifo_order. rewrite P. cbn [a' f_queue]. rewrite on_app, on_one, <- !app_assoc. f_equal.
      destruct (Nat.eqb_spec (s_lane p) l) as [<-|]; [|cbn; rewrite app_nil_r; reflexivity].
      destruct (fl_pending (fl a (s_lane p))) as [|q r] eqn:E; [reflexivity|exfalso].
      pose proof (fo_head _ _ O _ _ _ E). assert (s_bytes q = size (s_lane p)) by (apply SZ; rewrite E; left; reflexivity). lia.
    + set (v' := {| fl_credits := _ |}) in *.
      assert (F : forall m, fl (set_fl a (s_lane p) v') m = if (m =? s_lane p)%nat then v' else fl a m)
        by (intro m; exact (fl_set a (s_lane p) v' m LL)).
      split; [split; [exact O'|]|].
      * intros l q Q. rewrite F in Q. destruct (Nat.eqb_spec l (s_lane p)) as [->|]; [|apply SZ; exact Q].
        cbn in Q. apply in_app_or in Q as [Q|[<-|[]]]; [apply SZ; exact Q|exact G].
      * intro l. unfold fifo_order. rewrite F, on_one, (Nat.eqb_sym (s_lane p)). cbn [set_fl f_queue].
        rewrite <- app_assoc. f_equal. destruct (Nat.eqb_spec l (s_lane p)) as [->|]; [reflexivity|rewrite app_nil_r; reflexivity].
  - intros a l0 c [O SZ] LN C. pose proof (l_credit _ _ _ _ _ _ L a l0 c O LN C) as [O' _]. cbn in O'.
    assert (LL : (l0 < length (f_vls a))%nat) by (rewrite (fo_len _ _ O); exact LN).
    unfold fifo_credit in *.
    destruct (unstall (fl_credits (fl a l0) + c) (fl_pending (fl a l0))) as [[c' q'] out] eqn:U.
    destruct (unstall_spec _ _ _ _ _ U) as [U1 _].
    { pose proof (fo_cred _ _ O l0). lia. }
    { intros p P. apply (fo_pend _ _ O _ _ P). }
    set (v' := {| fl_credits := _ |}) in *. set (a' := {| f_vls := _ |}) in *.
    assert (F : forall m, fl a' m = if (m =? l0)%nat then v' else fl a m)
      by (intro m; exact (fl_set a l0 v' m LL)).
    assert (OL : forall p, In p out -> s_lane p = l0)
      by (intros p P; apply (fo_pend _ _ O l0 p); rewrite U1; apply in_or_app; left; exact P).
    split; [split; [exact O'|]|].
    + intros l q Q. rewrite F in Q. destruct (Nat.eqb_spec l l0) as [->|]; [|apply SZ; exact Q].
      apply SZ. rewrite U1. apply in_or_app. right. exact Q.
    + intro l. unfold fifo_order. rewrite F. cbn [a' f_queue]. rewrite on_app, <- app_assoc. f_equal.
      destruct (Nat.eqb_spec l l0) as [->|NE].
      * rewrite on_all by exact OL. symmetry. exact U1.
      * rewrite on_none by (intros p P; rewrite (OL p P); congruence). reflexivity.
  - intros a t tie p a' [O SZ] E H. destruct (l_pop _ _ _ _ _ _ L a t tie O E) as [p0 [a0 [H0 [O' [PL [PB _]]]]]].
    cbn in H0. rewrite H in H0. injection H0 as <- <-. unfold fifo_pop in H.
    destruct (f_queue a) as [|x r] eqn:Q; [discriminate|]. injection H as <- <-.
    split; [split; [exact O'|exact SZ]|]. split; [exact PL|]. split; [exact PB|].
    intro l. unfold fifo_order. rewrite Q. cbn [f_queue]. change (x :: r) with ([x] ++ r).
    rewrite on_app, <- app_assoc. reflexivity.
Qed.
