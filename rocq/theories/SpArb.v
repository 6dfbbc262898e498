(* The two arbitrators of the SNAPPR output port keep their packets and their credits. *)
From Coq Require Import List ZArith Bool Arith Lia Permutation.
From Verif Require Import PtModel PtProp SpModel SpSpec SpProof.
Import ListNotations.
Local Open Scope Z_scope.

Lemma concat_set_perm : forall V (g : V -> list spkt) vs l v d, (l < length vs)%nat ->
  Permutation (g (nth l vs d) ++ concat (map g (set_nth vs l v))) (g v ++ concat (map g vs)).
Proof.
  intros V g. induction vs as [|x vs IH]; intros l v d H; [cbn in H; lia|]. destruct l as [|l]; cbn.
  - rewrite !app_assoc. apply Permutation_app_tail. apply Permutation_app_comm.
  - cbn in H. specialize (IH l v d ltac:(lia)).
    apply (Permutation_trans (l' := g x ++ g (nth l vs d) ++ concat (map g (set_nth vs l v)))).
    + rewrite !app_assoc. apply Permutation_app_tail. apply Permutation_app_comm.
    + apply (Permutation_trans (l' := g x ++ g v ++ concat (map g vs))); [apply Permutation_app_head; exact IH|].
      rewrite !app_assoc. apply Permutation_app_tail. apply Permutation_app_comm.
Qed.

Lemma on_none : forall l ps, (forall p, In p ps -> s_lane p <> l) -> on l ps = [].
Proof.
  intros l. induction ps as [|p ps IH]; intro H; [reflexivity|]. unfold on in *. cbn.
  destruct (Nat.eqb_spec (s_lane p) l) as [E|E]; [exfalso; apply (H p); [left; reflexivity|exact E]|].
  apply IH. intros q Q. apply H. right. exact Q.
Qed.

Lemma on_all : forall l ps, (forall p, In p ps -> s_lane p = l) -> on l ps = ps.
Proof.
  intros l. induction ps as [|p ps IH]; intro H; [reflexivity|]. unfold on in *. cbn.
  rewrite (H p (or_introl eq_refl)), Nat.eqb_refl. f_equal. apply IH. intros q Q. apply H. right. exact Q.
Qed.

Lemma on_concat : forall V (g : V -> list spkt) (d : V) vs k l, g d = [] ->
  (forall i p, In p (g (nth i vs d)) -> s_lane p = (k + i)%nat) ->
  on l (concat (map g vs)) = if (l <? k)%nat then [] else g (nth (l - k) vs d).
Proof.
  intros V g d. induction vs as [|x vs IH]; intros k l G H.
  - change (on l (concat (map g []))) with (@nil spkt). destruct (l <? k)%nat; [reflexivity|].
    destruct (l - k)%nat; cbn; rewrite G; reflexivity.
  - cbn [map concat]. rewrite on_app. rewrite (IH (S k) l G).
    2:{ intros i p P. rewrite (H (S i) p P). lia. }
    assert (X : forall p, In p (g x) -> s_lane p = k) by (intros p P; rewrite (H 0%nat p P); lia).
    destruct (Nat.ltb_spec l k).
    + rewrite on_none by (intros p P; rewrite (X p P); lia).
      destruct (Nat.ltb_spec l (S k)); [reflexivity|lia].
    + destruct (Nat.eq_dec l k) as [->|NE].
      * rewrite on_all by exact X. destruct (Nat.ltb_spec k (S k)); [|lia]. rewrite Nat.sub_diag, app_nil_r. reflexivity.
      * rewrite on_none by (intros p P; rewrite (X p P); lia).
        destruct (Nat.ltb_spec l (S k)); [lia|]. replace (l - k)%nat with (S (l - S k)) by lia. reflexivity.
Qed.

Lemma on_one : forall l p, on l [p] = if Nat.eqb (s_lane p) l then [p] else [].
Proof. reflexivity. Qed.

(* ---------- FifoPortArbitrator ---------- *)

Record fifo_ok (n : nat) (a : fifo) : Prop := {
  fo_len : length (f_vls a) = n;
  fo_cred : forall l, 0 <= fl_credits (fl a l);
  fo_head : forall l q r, fl_pending (fl a l) = q :: r -> fl_credits (fl a l) < s_bytes q;
  fo_queue : forall p, In p (f_queue a) -> (s_lane p < n)%nat /\ 0 <= s_bytes p;
  fo_pend : forall l p, In p (fl_pending (fl a l)) -> s_lane p = l /\ (l < n)%nat /\ 0 <= s_bytes p
}.
Definition fifo_held (a : fifo) : list spkt := f_queue a ++ concat (map fl_pending (f_vls a)).
Definition fifo_purse (a : fifo) (l : nat) : Z := fl_credits (fl a l) + bsum (on l (f_queue a)).
Definition fifo_waiting (a : fifo) (l : nat) : list spkt := fl_pending (fl a l).

Lemma unstall_spec : forall q c c' q' out, unstall c q = (c', q', out) -> 0 <= c ->
  (forall p, In p q -> 0 <= s_bytes p) ->
  q = out ++ q' /\ c' + bsum out = c /\ 0 <= c' /\ (forall x r, q' = x :: r -> c' < s_bytes x).
Proof.
  induction q as [|p q IH]; intros c c' q' out H C B; cbn in H.
  - injection H as <- <- <-. cbn. repeat split; try lia. intros; discriminate.
  - destruct (Z.leb_spec (s_bytes p) c).
    + destruct (unstall (c - s_bytes p) q) as [[c1 q1] o1] eqn:E. injection H as <- <- <-.
      destruct (IH _ _ _ _ E) as [I1 [I2 [I3 I4]]]; [lia|intros x X; apply B; right; exact X|].
      split; [cbn; f_equal; exact I1|]. split; [cbn; fold (bsum o1); lia|]. auto.
    + injection H as <- <- <-. cbn. repeat split; try lia. intros x r X. injection X as -> ->. lia.
Qed.

Lemma fl_set : forall a l v m, (l < length (f_vls a))%nat -> fl (set_fl a l v) m = if (m =? l)%nat then v else fl a m.
Proof. intros. unfold fl, set_fl. cbn. apply nth_set_nth. assumption. Qed.

Lemma bsum_nonneg : forall ps, (forall p, In p ps -> 0 <= s_bytes p) -> 0 <= bsum ps.
Proof.
  induction ps as [|p ps IH]; intro H; cbn; [lia|]. fold (bsum ps).
  pose proof (H p (or_introl eq_refl)). assert (0 <= bsum ps) by (apply IH; intros q Q; apply H; right; exact Q). lia.
Qed.

Lemma on_in : forall l ps p, In p (on l ps) -> In p ps /\ s_lane p = l.
Proof. intros l ps p H. apply filter_In in H as [H1 H2]. apply Nat.eqb_eq in H2. auto. Qed.

Theorem fifo_lawful : forall n, lawful fifo_arb n (fifo_ok n) fifo_held fifo_purse fifo_waiting.
Proof.
  intro n. split; cbn [fifo_arb arb_state arb_insert arb_credit arb_pop arb_empty].
  - intros a t p [k1 k2 k3 k4 k5] SL SB. unfold fifo_insert.
    assert (LL : (s_lane p < length (f_vls a))%nat) by lia.
    destruct (Z.leb_spec (s_bytes p) (fl_credits (fl a (s_lane p)))) as [LE|GT].
    + set (v' := {| fl_credits := _ |}). set (a' := {| f_vls := _ |}).
      assert (F : forall m, fl a' m = if (m =? s_lane p)%nat then v' else fl a m)
        by (intro m; exact (fl_set a (s_lane p) v' m LL)).
      assert (P : forall m, fl_pending (fl a' m) = fl_pending (fl a m))
        by (intro m; rewrite F; destruct (Nat.eqb_spec m (s_lane p)) as [->|]; reflexivity).
      split; [split|split; [|split]].
      * cbn. rewrite set_nth_length. exact k1.
      * intro l. rewrite F. destruct (l =? s_lane p)%nat; [cbn; lia|apply k2].
      * intros l q r Q. rewrite P in Q. rewrite F. specialize (k3 _ _ _ Q).
        destruct (Nat.eqb_spec l (s_lane p)) as [->|]; [cbn; lia|exact k3].
      * cbn. intros q Q. apply in_app_or in Q as [Q|[<-|[]]]; auto.
      * intros l q Q. rewrite P in Q. apply (k5 _ _ Q).
      * unfold fifo_held. cbn. rewrite <- app_assoc. cbn.
        apply (Permutation_trans (l' := p :: f_queue a ++ concat (map fl_pending (set_nth (f_vls a) (s_lane p) v')))).
        { apply Permutation_sym, Permutation_middle. }
        constructor. apply Permutation_app_head. eapply Permutation_app_inv_l.
        apply (concat_set_perm _ fl_pending (f_vls a) (s_lane p) v' no_flane LL).
      * intro l. unfold fifo_purse. rewrite F. cbn [a' f_queue]. rewrite on_app, bsum_app, on_one.
        rewrite (Nat.eqb_sym l). destruct (Nat.eqb_spec (s_lane p) l) as [<-|]; cbn; lia.
      * intro l. left. unfold fifo_waiting. apply P.
    + set (v' := {| fl_credits := _ |}). set (a' := set_fl _ _ _).
      assert (F : forall m, fl a' m = if (m =? s_lane p)%nat then v' else fl a m)
        by (intro m; exact (fl_set a (s_lane p) v' m LL)).
      assert (P : forall m, fl_credits (fl a' m) = fl_credits (fl a m))
        by (intro m; rewrite F; destruct (Nat.eqb_spec m (s_lane p)) as [->|]; reflexivity).
      split; [split|split; [|split]].
      * cbn. rewrite set_nth_length. exact k1.
      * intro l. rewrite P. apply k2.
      * intros l q r Q. rewrite P. rewrite F in Q. destruct (Nat.eqb_spec l (s_lane p)) as [->|]; [|apply (k3 _ _ _ Q)].
        cbn in Q. destruct (fl_pending (fl a (s_lane p))) as [|x y] eqn:E; cbn in Q.
        -- injection Q as <- <-. exact GT.
        -- injection Q as <- <-. apply (k3 _ _ _ E).
      * cbn. exact k4.
      * intros l q Q. rewrite F in Q. destruct (Nat.eqb_spec l (s_lane p)) as [->|]; [|apply (k5 _ _ Q)].
        cbn in Q. apply in_app_or in Q as [Q|[<-|[]]]; [apply (k5 _ _ Q)|auto].
      * unfold fifo_held. cbn.
        apply (Permutation_trans (l' := f_queue a ++ p :: concat (map fl_pending (f_vls a)))).
        2:{ apply Permutation_sym, Permutation_middle. }
        apply Permutation_app_head. apply (Permutation_app_inv_l (fl_pending (fl a (s_lane p)))).
        apply (Permutation_trans (concat_set_perm _ fl_pending (f_vls a) (s_lane p) v' no_flane LL)).
        cbn. rewrite <- app_assoc. reflexivity.
      * intro l. unfold fifo_purse. rewrite P. reflexivity.
      * intro l. unfold fifo_waiting. rewrite F. destruct (Nat.eqb_spec l (s_lane p)) as [->|]; [right|left]; auto.
  - intros a l0 c [k1 k2 k3 k4 k5] SL SB. unfold fifo_credit.
    assert (LL : (l0 < length (f_vls a))%nat) by lia.
    destruct (unstall (fl_credits (fl a l0) + c) (fl_pending (fl a l0))) as [[c' q'] out] eqn:U.
    destruct (unstall_spec _ _ _ _ _ U) as [U1 [U2 [U3 U4]]].
    { pose proof (k2 l0). lia. }
    { intros p P. apply (k5 _ _ P). }
    set (v' := {| fl_credits := _ |}). set (a' := {| f_vls := _ |}).
    assert (F : forall m, fl a' m = if (m =? l0)%nat then v' else fl a m)
      by (intro m; exact (fl_set a l0 v' m LL)).
    assert (OL : forall p, In p out -> s_lane p = l0 /\ (l0 < n)%nat /\ 0 <= s_bytes p)
      by (intros p P; apply k5; rewrite U1; apply in_or_app; left; exact P).
    split; [split|split; [|split]].
    + cbn. rewrite set_nth_length. exact k1.
    + intro l. rewrite F. destruct (l =? l0)%nat; [cbn; lia|apply k2].
    + intros l q r Q. rewrite F in Q. rewrite F. destruct (l =? l0)%nat; [cbn in Q; cbn; apply (U4 _ _ Q)|apply (k3 _ _ _ Q)].
    + cbn. intros q Q. apply in_app_or in Q as [Q|Q]; [auto|]. destruct (OL _ Q) as [-> ?]. tauto.
    + intros l q Q. rewrite F in Q. destruct (Nat.eqb_spec l l0) as [->|]; [|apply (k5 _ _ Q)].
      apply k5. rewrite U1. apply in_or_app. right. exact Q.
    + unfold fifo_held. cbn. rewrite <- app_assoc. apply Permutation_app_head.
      apply (Permutation_app_inv_l q').
      pose proof (concat_set_perm _ fl_pending (f_vls a) l0 v' no_flane LL) as C. cbn in C.
      change (nth l0 (f_vls a) no_flane) with (fl a l0) in C. rewrite U1 in C.
      apply Permutation_sym. apply (Permutation_trans (Permutation_sym C)).
      rewrite !app_assoc. apply Permutation_app_tail. apply Permutation_app_comm.
    + intro l. unfold fifo_purse. rewrite F. cbn [a' f_queue]. rewrite on_app, bsum_app, (Nat.eqb_sym l0).
      destruct (Nat.eqb_spec l l0) as [->|NE].
      * rewrite (on_all l0 out) by (intros p P; apply (OL _ P)). cbn. lia.
      * rewrite (on_none l out) by (intros p P; rewrite (proj1 (OL _ P)); lia). cbn. lia.
    + intro l. unfold fifo_waiting. rewrite F. destruct (Nat.eqb_spec l l0) as [->|].
      * exists out. exact U1.
      * exists []. reflexivity.
  - intros a t tie [k1 k2 k3 k4 k5] E. unfold fifo_empty in E. unfold fifo_pop.
    destruct (f_queue a) as [|p r] eqn:Q; [discriminate|]. exists p. eexists. split; [reflexivity|].
    split; [split; auto|].
    { cbn. intros x X. apply k4. right. exact X. }
    destruct (k4 p (or_introl eq_refl)) as [P1 P2]. split; [exact P1|]. split; [exact P2|].
    split; [unfold fifo_held; rewrite Q; reflexivity|]. split.
    + intro l. unfold fifo_purse. rewrite Q. change (p :: r) with ([p] ++ r). rewrite on_app, bsum_app, on_one.
      unfold fl. cbn [f_vls f_queue]. destruct (Nat.eqb (s_lane p) l); cbn; lia.
    + intro l. exists []. reflexivity.
  - intros a l [k1 k2 k3 k4 k5]. unfold fifo_purse. pose proof (k2 l).
    assert (0 <= bsum (on l (f_queue a))); [|lia]. apply bsum_nonneg. intros p P. apply on_in in P as [P _]. apply (k4 _ P).
  - intros a [k1 k2 k3 k4 k5] E l. unfold fifo_empty in E. destruct (f_queue a) as [|] eqn:Q; [|discriminate].
    unfold fifo_held, fifo_waiting, fifo_purse. rewrite Q. cbn [app]. split.
    + rewrite (on_concat _ fl_pending no_flane (f_vls a) 0 l); [|reflexivity|].
      * cbn. rewrite Nat.sub_0_r. reflexivity.
      * intros i p P. apply (k5 _ _ P).
    + intros q r H. cbn. pose proof (k3 _ _ _ H). lia.
Qed.

Lemma fifo_start : forall cr, (forall c, In c cr -> 0 <= c) ->
  fifo_ok (length cr) (fifo_init cr) /\ fifo_held (fifo_init cr) = [] /\
  (forall l, fifo_purse (fifo_init cr) l = nth l cr 0) /\ (forall l, fifo_waiting (fifo_init cr) l = []).
Proof.
  intros cr H.
  assert (F : forall l, fl (fifo_init cr) l = {| fl_credits := nth l cr 0; fl_pending := [] |}).
  { intro l. unfold fl, fifo_init. cbn. change no_flane with ((fun c => {| fl_credits := c; fl_pending := [] |}) 0).
    apply map_nth. }
  split; [split|split; [|split]].
  - cbn. apply map_length.
  - intro l. rewrite F. cbn. destruct (nth_in_or_default l cr 0) as [I|E]; [apply H; exact I|rewrite E; lia].
  - intros l q r Q. rewrite F in Q. discriminate.
  - cbn. tauto.
  - intros l p P. rewrite F in P. destruct P.
  - unfold fifo_held. cbn. rewrite map_map. cbn. induction cr; [reflexivity|]. cbn. apply IHcr.
    + intros c C. apply H. right. exact C.
    + intro l. unfold fl, fifo_init. cbn. change no_flane with ((fun c => {| fl_credits := c; fl_pending := [] |}) 0).
      apply map_nth.
  - intro l. unfold fifo_purse. rewrite F. cbn. lia.
  - intro l. unfold fifo_waiting. rewrite F. reflexivity.
Qed.
