(** Asynchronous execution of a round schedule: determinism, progress and
    termination. *)
From Coq Require Import List Arith Lia Bool.
From Verif Require Import RdModel ListFacts.
Import ListNotations.

Lemma ctree_loop_ok : forall f n p l,
  p = 2 ^ l -> n <= p + f -> (l = 0 \/ 2 ^ (l - 1) < n) ->
  let '(p', l') := ctree_loop f n p l in
  p' = 2 ^ l' /\ n <= p' /\ (l' = 0 \/ 2 ^ (l' - 1) < n).
Proof.
  induction f as [|f IH]; intros n p l Hp Hn Hl; cbn [ctree_loop].
  - repeat split; auto; lia.
  - destruct (Nat.ltb_spec p n) as [H|H].
    + apply IH; [cbn [Nat.pow]; lia | | right; replace (S l - 1) with l by lia; lia].
      assert (1 <= p) by (subst p; pose proof (Nat.pow_nonzero 2 l); lia). lia.
    + repeat split; auto.
Qed.

Lemma ctree_ok : forall n,
  pow2_of n = 2 ^ log2_of n /\ n <= 2 ^ log2_of n /\ (log2_of n = 0 \/ 2 ^ (log2_of n - 1) < n).
Proof.
  intros n. unfold pow2_of, log2_of.
  pose proof (ctree_loop_ok n n 1 0 eq_refl ltac:(lia) ltac:(lia)) as H.
  destruct (ctree_loop n n 1 0) as [p l]. cbn [fst snd]. destruct H as [H1 [H2 H3]].
  repeat split; [exact H1 | lia | exact H3].
Qed.

Lemma log2_of_le1 : forall n, n <= 1 -> log2_of n = 0.
Proof. intros [|[|n]] H; try lia; reflexivity. Qed.

Section Buf.
Context {T : Type}.
Lemma bread_length : forall (b : nat -> T) o n, length (bread b o n) = n.
Proof. intros. unfold bread. rewrite map_length, seq_length. reflexivity. Qed.

Lemma nth_bread : forall (b : nat -> T) o n i d, i < n -> nth i (bread b o n) d = b (o + i).
Proof.
  intros b o n i d H. unfold bread.
  rewrite (nth_indep _ d (b 0)) by (rewrite map_length, seq_length; lia).
  rewrite (map_nth b). rewrite seq_nth by lia. reflexivity.
Qed.

Lemma bwrite_in : forall (b : nat -> T) o l i d, o <= i < o + length l ->
  bwrite b o l i = nth (i - o) l d.
Proof.
  intros b o l i d H. unfold bwrite. destruct (Nat.ltb_spec i o); [lia|].
  apply nth_indep. lia.
Qed.

Lemma bwrite_out : forall (b : nat -> T) o l i, i < o \/ o + length l <= i -> bwrite b o l i = b i.
Proof.
  intros b o l i H. unfold bwrite. destruct (Nat.ltb_spec i o); [reflexivity|].
  apply nth_overflow. lia.
Qed.

Lemma bread_bwrite_disjoint : forall (b : nat -> T) o l o' n,
  o' + n <= o \/ o + length l <= o' -> bread (bwrite b o l) o' n = bread b o' n.
Proof.
  intros b o l o' n H. unfold bread. apply map_ext_in. intros i Hi. apply in_seq in Hi.
  apply bwrite_out. lia.
Qed.

Lemma bread_ext : forall (b b' : nat -> T) o n,
  (forall i, o <= i < o + n -> b i = b' i) -> bread b o n = bread b' o n.
Proof. intros b b' o n H. unfold bread. apply map_ext_in. intros i Hi. apply in_seq in Hi. apply H. lia. Qed.
End Buf.

Section Proof.
Context {St Msg : Type}.
Variable s : sched St Msg.

(** The synchronous run: what the buffers hold when all ranks go through the
    rounds in lockstep. *)
Fixpoint smem (r p : nat) : St :=
  match r with
  | 0 => sc_init s p
  | S r' =>
      let a q := sc_pre s r' q (smem r' q) in
      sc_post s r' p
        match sc_from s r' p with
        | Some q => sc_in s r' p (a p) (sc_out s r' q (a q))
        | None => a p
        end
  end.

Definition amem (r p : nat) : St := sc_pre s r p (smem r p).
Definition bmem (r p : nat) : St :=
  match sc_from s r p with
  | Some q => sc_in s r p (amem r p) (sc_out s r q (amem r q))
  | None => amem r p
  end.

Lemma smem_S : forall r p, smem (S r) p = sc_post s r p (bmem r p).
Proof. reflexivity. Qed.

(** Conditions on a schedule: sends and receives match up, and what is sent in
    a round does not depend on what is received in the same round. *)
Definition matched : Prop :=
  forall r p q, r < sc_nr s -> p < sc_np s ->
    (sc_to s r p = Some q -> q < sc_np s /\ sc_from s r q = Some p) /\
    (sc_from s r p = Some q -> q < sc_np s /\ sc_to s r q = Some p).
Definition no_race : Prop :=
  forall r p q, r < sc_nr s -> p < sc_np s -> sc_from s r p = Some q ->
    sc_out s r p (sc_in s r p (amem r p) (sc_out s r q (amem r q))) = sc_out s r p (amem r p).

Hypothesis Hm : matched.
Hypothesis Hn : no_race.

Definition has_sent (l : loc St) (r : nat) : Prop := r < l_rnd l \/ (l_rnd l = r /\ l_sent l = true).
Definition has_rcvd (l : loc St) (r : nat) : Prop := r < l_rnd l \/ (l_rnd l = r /\ l_rcvd l = true).

Definition lok (p : nat) (l : loc St) : Prop :=
  l_rnd l <= sc_nr s /\
  (l_open l = false -> l_sent l = false /\ l_rcvd l = false /\ l_mem l = smem (l_rnd l) p) /\
  (l_open l = true -> l_rnd l < sc_nr s /\
     l_mem l = (if l_rcvd l then bmem (l_rnd l) p else amem (l_rnd l) p) /\
     (l_rcvd l = true -> sc_from s (l_rnd l) p <> None) /\
     (l_sent l = true -> sc_to s (l_rnd l) p <> None)).

Definition key (x : nat * nat * nat * Msg) : nat * nat * nat := fst x.

Definition netok (c : rcfg St Msg) : Prop :=
  NoDup (map key (r_net c)) /\
  (forall r p q m, In (r, p, q, m) (r_net c) -> m = sc_out s r p (amem r p)) /\
  (forall r p q, In (r, p, q) (map key (r_net c)) <->
     (r < sc_nr s /\ p < sc_np s /\ q < sc_np s /\ sc_to s r p = Some q /\
      has_sent (r_loc c p) r /\ ~ has_rcvd (r_loc c q) r)).

Definition heard (c : rcfg St Msg) : Prop :=
  forall r p q, p < sc_np s -> has_rcvd (r_loc c p) r -> sc_from s r p = Some q ->
    has_sent (r_loc c q) r.

Definition rinv (c : rcfg St Msg) : Prop :=
  (forall p, p < sc_np s -> lok p (r_loc c p)) /\ netok c /\ heard c.

Lemma rset_same : forall (f : nat -> loc St) p l, rset f p l p = l.
Proof. intros. unfold rset. rewrite Nat.eqb_refl. reflexivity. Qed.
Lemma rset_other : forall (f : nat -> loc St) p l q, q <> p -> rset f p l q = f q.
Proof. intros f p l q H. unfold rset. rewrite (proj2 (Nat.eqb_neq q p) H). reflexivity. Qed.

Lemma rinv_init : rinv (rinit s).
Proof.
  split; [|split].
  - intros p Hp. unfold lok; cbn. repeat split; intros; try discriminate; auto; lia.
  - split; [|split]; cbn; [constructor | tauto |].
    intros r p q. split; [tauto|]. intros (_ & _ & _ & _ & Hs & _).
    unfold has_sent in Hs; cbn in Hs. destruct Hs as [Hs|[_ Hs]]; [lia|discriminate].
  - intros r p q Hp Hr. unfold has_rcvd in Hr; cbn in Hr. destruct Hr as [Hr|[_ Hr]]; [lia|discriminate].
Qed.

(** Replacing participant [p]'s local state by one with the same progress
    (same completed sends and receives) keeps the network invariants. *)
Lemma netok_same : forall c p l',
  netok c -> heard c ->
  (forall r, has_sent (r_loc c p) r -> has_sent l' r) ->
  (forall r q, r < sc_nr s -> sc_to s r p = Some q -> has_sent l' r -> has_sent (r_loc c p) r) ->
  (forall r, r < sc_nr s -> (forall q, sc_to s r q = Some p -> q < sc_np s -> (has_rcvd l' r <-> has_rcvd (r_loc c p) r))) ->
  (forall r q, sc_from s r p = Some q -> (has_rcvd l' r <-> has_rcvd (r_loc c p) r)) ->
  netok {| r_loc := rset (r_loc c) p l'; r_net := r_net c |} /\
  heard {| r_loc := rset (r_loc c) p l'; r_net := r_net c |}.
Proof.
  intros c p l' (N1 & N2 & N3) Hh Hs Hs2 Hr Hr'. split; [split; [exact N1|split; [exact N2|]]|].
  - cbn [r_loc r_net]. intros r a b. rewrite N3.
    assert (Ha : r < sc_nr s -> sc_to s r a = Some b ->
       (has_sent (rset (r_loc c) p l' a) r <-> has_sent (r_loc c a) r)).
    { intros H1 H2. destruct (Nat.eq_dec a p) as [->|Hne].
      - rewrite rset_same. split; [apply (Hs2 r b H1 H2)|apply Hs].
      - rewrite rset_other by exact Hne; tauto. }
    assert (Hb : r < sc_nr s -> a < sc_np s -> sc_to s r a = Some b ->
       (has_rcvd (rset (r_loc c) p l' b) r <-> has_rcvd (r_loc c b) r)).
    { intros H1 H2 H3. destruct (Nat.eq_dec b p) as [->|Hne].
      - rewrite rset_same. apply (Hr r H1 a H3 H2).
      - rewrite rset_other by exact Hne. tauto. }
    tauto.
  - intros r a b Ha Hr0 Hf. cbn [r_loc] in *.
    assert (Hb : has_sent (r_loc c b) r).
    { apply (Hh r a b Ha); [|exact Hf].
      destruct (Nat.eq_dec a p) as [->|Hne].
      - rewrite rset_same in Hr0. apply (Hr' r b Hf). exact Hr0.
      - rewrite rset_other in Hr0 by exact Hne. exact Hr0. }
    destruct (Nat.eq_dec b p) as [->|Hne].
    + rewrite rset_same. apply Hs. exact Hb.
    + rewrite rset_other by exact Hne. exact Hb.
Qed.

Lemma lok_set : forall (c : rcfg St Msg) p l', (forall q, q < sc_np s -> lok q (r_loc c q)) -> lok p l' ->
  forall q, q < sc_np s -> lok q (rset (r_loc c) p l' q).
Proof.
  intros c p l' H Hl q Hq. destruct (Nat.eq_dec q p) as [->|Hne].
  - rewrite rset_same. exact Hl.
  - rewrite rset_other by exact Hne. apply H. exact Hq.
Qed.

Lemma rinv_step : forall c c', rinv c -> rstep s c c' -> rinv c'.
Proof.
  intros c c' (I1 & I2 & I3) Hst. inversion Hst as
    [c0 p l Hp Hl Hr Ho | c0 p l q Hp Hl Ho Hse Hto | c0 p l q m n1 n2 Hp Hl Ho Hrc Hfr Hnet
     | c0 p l Hp Hl Ho Hse Hrc]; subst c0 c'; pose proof (I1 p Hp) as Lp; rewrite Hl in Lp.
  - (* enter *)
    destruct Lp as (L1 & L2 & _). destruct (L2 Ho) as (E1 & E2 & E3).
    split; [|apply netok_same; auto].
    + apply lok_set; [exact I1|]. split; cbn; [exact L1|]. split; [discriminate|].
      intros _. repeat split; try discriminate; auto. unfold amem. rewrite E3. reflexivity.
    + intros r. rewrite Hl. unfold has_sent; cbn. rewrite E1. tauto.
    + intros r q _ _. rewrite Hl. unfold has_sent; cbn. rewrite E1. tauto.
    + intros r _ q _ _. rewrite Hl. unfold has_rcvd; cbn. rewrite E2. tauto.
    + intros r q _. rewrite Hl. unfold has_rcvd; cbn. rewrite E2. tauto.
  - (* send *)
    destruct Lp as (L1 & _ & L3). destruct (L3 Ho) as (E1 & E2 & E3 & E4).
    destruct I2 as (N1 & N2 & N3).
    set (l' := {| l_rnd := l_rnd l; l_open := true; l_sent := true; l_rcvd := l_rcvd l; l_mem := l_mem l |}).
    pose proof (proj1 (Hm (l_rnd l) p q E1 Hp) Hto) as (Hq & Hfq).
    assert (Hsent : forall a r, has_sent (rset (r_loc c) p l' a) r <->
              (has_sent (r_loc c a) r \/ (a = p /\ r = l_rnd l))).
    { intros a r. destruct (Nat.eq_dec a p) as [->|Hne].
      - rewrite rset_same, Hl. unfold has_sent, l'; cbn. intuition congruence.
      - rewrite rset_other by exact Hne. tauto. }
    assert (Hrcv : forall a r, has_rcvd (rset (r_loc c) p l' a) r <-> has_rcvd (r_loc c a) r).
    { intros a r. destruct (Nat.eq_dec a p) as [->|Hne].
      - rewrite rset_same, Hl. unfold has_rcvd, l'; cbn. tauto.
      - rewrite rset_other by exact Hne. tauto. }
    assert (Hns : ~ has_sent (r_loc c p) (l_rnd l)).
    { rewrite Hl. unfold has_sent. rewrite Hse. intros [H|[_ H]]; [lia|discriminate]. }
    split; [|split].
    + cbn [r_loc]. apply lok_set; [exact I1|]. unfold l'. split; cbn; [exact L1|]. split; [discriminate|].
      intros _. repeat split; auto. intros _. rewrite Hto. discriminate.
    + split; [|split]; cbn [r_net r_loc].
      * cbn [map key fst]. constructor; [|exact N1]. rewrite N3. tauto.
      * intros r a b m [H|H]; [|eapply N2; eauto].
        injection H as <- <- <- <-. rewrite E2.
        destruct (l_rcvd l) eqn:Er; [|reflexivity].
        unfold bmem. destruct (sc_from s (l_rnd l) p) as [b'|] eqn:Ef; [|congruence].
        apply Hn; auto.
      * intros r a b. cbn [map key fst In]. rewrite N3, Hsent, Hrcv.
        split.
        -- intros [H|H]; [|tauto]. injection H as <- <- <-.
           assert (Hnr : ~ has_rcvd (r_loc c q) (l_rnd l)).
           { intros H. apply Hns. apply (I3 (l_rnd l) q p Hq H Hfq). }
           tauto.
        -- intros (H1 & H2 & H3 & H4 & [H5|[-> ->]] & H6); [tauto|].
           left. rewrite Hto in H4. injection H4 as <-. reflexivity.
    + intros r a b Ha Hra Hf. cbn [r_loc] in *. apply Hsent. left.
      apply (I3 r a b Ha); [|exact Hf]. apply Hrcv. exact Hra.
  - (* recv *)
    destruct Lp as (L1 & _ & L3). destruct (L3 Ho) as (E1 & E2 & E3 & E4).
    destruct I2 as (N1 & N2 & N3).
    set (l' := {| l_rnd := l_rnd l; l_open := true; l_sent := l_sent l; l_rcvd := true;
                  l_mem := sc_in s (l_rnd l) p (l_mem l) m |}).
    pose proof (proj2 (Hm (l_rnd l) p q E1 Hp) Hfr) as (Hq & Htq).
    rewrite Hrc in E2. rewrite Hnet in N1, N2, N3.
    rewrite map_app in N1, N3. cbn [map key fst] in N1, N3.
    assert (Hkey : In (l_rnd l, q, p) (map key n1 ++ (l_rnd l, q, p) :: map key n2))
      by (apply in_or_app; right; left; reflexivity).
    pose proof (proj1 (N3 _ _ _) Hkey) as (_ & _ & _ & _ & Hsq & _).
    assert (Hmm : m = sc_out s (l_rnd l) q (amem (l_rnd l) q)).
    { apply (N2 (l_rnd l) q p m). apply in_or_app; right; left; reflexivity. }
    assert (Hsent : forall a r, has_sent (rset (r_loc c) p l' a) r <-> has_sent (r_loc c a) r).
    { intros a r. destruct (Nat.eq_dec a p) as [->|Hne].
      - rewrite rset_same, Hl. unfold has_sent, l'; cbn. tauto.
      - rewrite rset_other by exact Hne. tauto. }
    assert (Hrcv : forall a r, has_rcvd (rset (r_loc c) p l' a) r <->
              (has_rcvd (r_loc c a) r \/ (a = p /\ r = l_rnd l))).
    { intros a r. destruct (Nat.eq_dec a p) as [->|Hne].
      - rewrite rset_same, Hl. unfold has_rcvd, l'; cbn. intuition congruence.
      - rewrite rset_other by exact Hne. tauto. }
    split; [|split].
    + cbn [r_loc]. apply lok_set; [exact I1|]. unfold l'. split; cbn; [exact L1|]. split; [discriminate|].
      intros _. repeat split; auto.
      * rewrite E2. unfold bmem. rewrite Hfr, Hmm. reflexivity.
      * intros _. rewrite Hfr. discriminate.
    + split; [|split]; cbn [r_net r_loc].
      * rewrite map_app. exact (NoDup_remove_1 _ _ _ N1).
      * intros r a b m' H. apply (N2 r a b m'). apply in_app_or in H. apply in_or_app. cbn. tauto.
      * intros r a b. rewrite map_app, Hsent, Hrcv.
        pose proof (NoDup_remove_2 _ _ _ N1) as Hnin.
        assert (Hio : In (r, a, b) (map key n1 ++ map key n2) <->
                      (In (r, a, b) (map key n1 ++ (l_rnd l, q, p) :: map key n2) /\
                       (r, a, b) <> (l_rnd l, q, p))).
        { split.
          - intros H. split; [apply in_app_or in H; apply in_or_app; cbn; tauto|].
            intros He. rewrite He in H. exact (Hnin H).
          - intros [H1 H2]. apply in_app_or in H1. apply in_or_app. cbn in H1.
            destruct H1 as [H1|[H1|H1]]; [tauto|congruence|tauto]. }
        rewrite Hio, N3. split.
        -- intros [(H1 & H2 & H3 & H4 & H5 & H6) Hd]. repeat split; auto.
           intros [H7|[-> ->]]; [tauto|].
           apply Hd. pose proof (proj1 (Hm (l_rnd l) a p H1 H2) H4) as [_ H8].
           rewrite Hfr in H8. injection H8 as <-. reflexivity.
        -- intros (H1 & H2 & H3 & H4 & H5 & H6). split.
           ++ repeat split; auto.
           ++ intros He. injection He as -> -> ->. tauto.
    + intros r a b Ha Hra Hf. cbn [r_loc] in *. apply Hsent. apply Hrcv in Hra.
      destruct Hra as [Hra|[-> ->]].
      * apply (I3 r a b Ha Hra Hf).
      * rewrite Hfr in Hf. injection Hf as <-. exact Hsq.
  - (* leave *)
    destruct Lp as (L1 & _ & L3). destruct (L3 Ho) as (E1 & E2 & E3 & E4).
    split; [|apply netok_same; auto].
    + apply lok_set; [exact I1|]. split; cbn; [lia|]. split; [|discriminate].
      intros _. repeat split; auto. rewrite E2.
      destruct (l_rcvd l) eqn:Er; [reflexivity|].
      unfold bmem. destruct (sc_from s (l_rnd l) p) eqn:Ef; [|reflexivity].
      exfalso. assert (false = true) by (apply Hrc; discriminate). discriminate.
    + intros r. rewrite Hl. unfold has_sent; cbn. lia.
    + intros r q Hr Hto. rewrite Hl. unfold has_sent; cbn. intros [H|[H H']]; [|discriminate].
      destruct (Nat.eq_dec r (l_rnd l)) as [->|Hne]; [|lia].
      right. split; [reflexivity|]. apply Hse. rewrite Hto. discriminate.
    + assert (Hboth : forall r, sc_from s r p <> None ->
        (has_rcvd {| l_rnd := S (l_rnd l); l_open := false; l_sent := false; l_rcvd := false;
                     l_mem := sc_post s (l_rnd l) p (l_mem l) |} r <-> has_rcvd (r_loc c p) r)).
      { intros r Hf. rewrite Hl. unfold has_rcvd; cbn. split; [|lia].
        intros [H|[H H']]; [|discriminate].
        destruct (Nat.eq_dec r (l_rnd l)) as [->|Hne]; [|lia].
        right. split; [reflexivity|]. apply Hrc. exact Hf. }
      intros r Hr q Hto Hq. apply Hboth.
      rewrite (proj2 (proj1 (Hm r q p Hr Hq) Hto)). discriminate.
    + intros r q Hf. rewrite Hl. unfold has_rcvd; cbn. split; [|lia].
      intros [H|[H H']]; [|discriminate].
      destruct (Nat.eq_dec r (l_rnd l)) as [->|Hne]; [|lia].
      right. split; [reflexivity|]. apply Hrc. rewrite Hf. discriminate.
Qed.

Lemma rinv_exec : forall n c, rexec s n c -> rinv c.
Proof. induction 1 as [|n c c' H IH Hs]; [exact rinv_init | exact (rinv_step c c' IH Hs)]. Qed.

(** Whatever the interleaving, a participant that has gone through all rounds
    holds what the lockstep run gives. *)
Theorem rounds_result : forall n c p, rexec s n c -> p < sc_np s ->
  l_rnd (r_loc c p) = sc_nr s -> l_mem (r_loc c p) = smem (sc_nr s) p.
Proof.
  intros n c p H Hp Hr. destruct (rinv_exec n c H) as (I1 & _ & _).
  destruct (I1 p Hp) as (L1 & L2 & L3).
  destruct (l_open (r_loc c p)) eqn:Ho.
  - destruct (L3 eq_refl) as (H1 & _). lia.
  - destruct (L2 eq_refl) as (_ & _ & H1). rewrite H1, Hr. reflexivity.
Qed.

(** A round is left only after the partner has sent in that round. *)
Theorem rounds_causal : forall n c p q r, rexec s n c -> p < sc_np s ->
  r < l_rnd (r_loc c p) -> sc_from s r p = Some q -> has_sent (r_loc c q) r.
Proof.
  intros n c p q r H Hp Hr Hf. destruct (rinv_exec n c H) as (_ & _ & I3).
  apply (I3 r p q Hp); [left; exact Hr | exact Hf].
Qed.

Lemma min_rnd : forall (f : nat -> nat) k, 0 < k -> exists p, p < k /\ forall q, q < k -> f p <= f q.
Proof.
  intros f k. induction k as [|k IH]; intros Hk; [lia|].
  destruct (Nat.eq_dec k 0) as [->|Hz].
  - exists 0. split; [lia|]. intros q Hq. replace q with 0 by lia. lia.
  - destruct IH as (p & Hp & Hmin); [lia|].
    destruct (le_lt_dec (f p) (f k)) as [Hl|Hl].
    + exists p. split; [lia|]. intros q Hq. destruct (Nat.eq_dec q k) as [->|Hne]; [exact Hl|apply Hmin; lia].
    + exists k. split; [lia|]. intros q Hq. destruct (Nat.eq_dec q k) as [->|Hne]; [lia|].
      specialize (Hmin q ltac:(lia)). lia.
Qed.

Lemma all_or_not : forall k (f : nat -> nat) m,
  (forall p, p < k -> f p = m) \/ (exists p, p < k /\ f p <> m).
Proof.
  induction k as [|k IH]; intros f m; [left; intros; lia|].
  destruct (IH f m) as [H|(p & Hp & H)].
  - destruct (Nat.eq_dec (f k) m) as [He|He].
    + left. intros p Hp. destruct (Nat.eq_dec p k) as [->|]; [exact He|apply H; lia].
    + right. exists k. split; [lia|exact He].
  - right. exists p. split; [lia|exact H].
Qed.

(** No interleaving gets stuck: as long as some participant is not done, some
    action is possible. *)
Theorem rounds_progress : forall n c, rexec s n c ->
  (forall p, p < sc_np s -> l_rnd (r_loc c p) = sc_nr s) \/ exists c', rstep s c c'.
Proof.
  intros n c H. destruct (rinv_exec n c H) as (I1 & I2 & _).
  destruct (all_or_not (sc_np s) (fun p => l_rnd (r_loc c p)) (sc_nr s)) as [Hall|(p0 & Hp0 & Hne0)];
    [left; exact Hall|right].
  destruct (min_rnd (fun p => l_rnd (r_loc c p)) (sc_np s)) as (p & Hp & Hmin); [lia|].
  assert (Hr : l_rnd (r_loc c p) < sc_nr s).
  { pose proof (Hmin p0 Hp0). pose proof (proj1 (I1 p0 Hp0)). cbn in H0. lia. }
  (* a participant in the lowest round that has not sent can act *)
  assert (Hact : forall q, q < sc_np s -> l_rnd (r_loc c q) < sc_nr s ->
             l_open (r_loc c q) = false \/ (l_sent (r_loc c q) = false /\ exists x, sc_to s (l_rnd (r_loc c q)) q = Some x) ->
             exists c', rstep s c c').
  { intros q Hq Hqr [Ho|(Hs & x & Hx)].
    - eexists. apply (r_enter s c q _ Hq eq_refl Hqr Ho).
    - destruct (l_open (r_loc c q)) eqn:Ho.
      + eexists. apply (r_send s c q _ x Hq eq_refl Ho Hs Hx).
      + eexists. apply (r_enter s c q _ Hq eq_refl Hqr Ho). }
  destruct (l_open (r_loc c p)) eqn:Ho; [|apply (Hact p Hp Hr); left; exact Ho].
  destruct (sc_to s (l_rnd (r_loc c p)) p) as [x|] eqn:Hto.
  { destruct (l_sent (r_loc c p)) eqn:Hs; [|apply (Hact p Hp Hr); right; split; [exact Hs|eauto]].
    destruct (sc_from s (l_rnd (r_loc c p)) p) as [q|] eqn:Hf.
    - destruct (l_rcvd (r_loc c p)) eqn:Hrc.
      + eexists. apply (r_leave s c p _ Hp eq_refl Ho); auto.
      + destruct (proj2 (Hm _ p q Hr Hp) Hf) as (Hq & Htq).
        destruct I2 as (_ & _ & N3).
        destruct (Nat.eq_dec (l_rnd (r_loc c q)) (l_rnd (r_loc c p))) as [He|He].
        * destruct (l_sent (r_loc c q)) eqn:Hsq.
          -- assert (Hk : In (l_rnd (r_loc c p), q, p) (map key (r_net c))).
             { apply N3. repeat split; auto.
               - right. split; [exact He|exact Hsq].
               - intros [Hx|[_ Hx]]; [lia|congruence]. }
             apply in_map_iff in Hk. destruct Hk as ([[[a b] d] m] & Hk & Hin).
             unfold key in Hk; cbn in Hk. injection Hk as -> -> ->.
             apply in_split in Hin. destruct Hin as (n1 & n2 & Hin).
             eexists. apply (r_recv s c p _ q m n1 n2 Hp eq_refl Ho Hrc Hf Hin).
          -- apply (Hact q Hq); [lia|]. right. split; [exact Hsq|]. rewrite He. eauto.
        * assert (Hk : In (l_rnd (r_loc c p), q, p) (map key (r_net c))).
          { apply N3. pose proof (Hmin q Hq). repeat split; auto.
            - left. cbn in *. lia.
            - intros [Hx|[_ Hx]]; [lia|congruence]. }
          apply in_map_iff in Hk. destruct Hk as ([[[a b] d] m] & Hk & Hin).
          unfold key in Hk; cbn in Hk. injection Hk as -> -> ->.
          apply in_split in Hin. destruct Hin as (n1 & n2 & Hin).
          eexists. apply (r_recv s c p _ q m n1 n2 Hp eq_refl Ho Hrc Hf Hin).
    - eexists. apply (r_leave s c p _ Hp eq_refl Ho); [auto|congruence]. }
  destruct (sc_from s (l_rnd (r_loc c p)) p) as [q|] eqn:Hf.
  - destruct (l_rcvd (r_loc c p)) eqn:Hrc.
    + eexists. apply (r_leave s c p _ Hp eq_refl Ho); [congruence|auto].
    + destruct (proj2 (Hm _ p q Hr Hp) Hf) as (Hq & Htq).
      destruct I2 as (_ & _ & N3).
      assert (Hgo : has_sent (r_loc c q) (l_rnd (r_loc c p)) -> exists c', rstep s c c').
      { intros Hsq. assert (Hk : In (l_rnd (r_loc c p), q, p) (map key (r_net c))).
        { apply N3. repeat split; auto. intros [Hx|[_ Hx]]; [lia|congruence]. }
        apply in_map_iff in Hk. destruct Hk as ([[[a b] d] m] & Hk & Hin).
        unfold key in Hk; cbn in Hk. injection Hk as -> -> ->.
        apply in_split in Hin. destruct Hin as (n1 & n2 & Hin).
        eexists. apply (r_recv s c p _ q m n1 n2 Hp eq_refl Ho Hrc Hf Hin). }
      destruct (Nat.eq_dec (l_rnd (r_loc c q)) (l_rnd (r_loc c p))) as [He|He].
      * destruct (l_sent (r_loc c q)) eqn:Hsq.
        -- apply Hgo. right. auto.
        -- apply (Hact q Hq); [lia|]. right. split; [exact Hsq|]. rewrite He. eauto.
      * apply Hgo. left. pose proof (Hmin q Hq). cbn in *. lia.
  - eexists. apply (r_leave s c p _ Hp eq_refl Ho); congruence.
Qed.

Definition b2n (b : bool) : nat := if b then 1 else 0.
Definition prog (l : loc St) : nat := 4 * l_rnd l + b2n (l_open l) + b2n (l_sent l) + b2n (l_rcvd l).
Fixpoint tot (f : nat -> loc St) (k : nat) : nat :=
  match k with 0 => 0 | S k' => tot f k' + prog (f k') end.

Lemma tot_set : forall f p l k, p < k -> prog (f p) < prog l -> tot f k < tot (rset f p l) k.
Proof.
  intros f p l k. induction k as [|k IH]; intros Hp Hlt; [lia|]. cbn [tot].
  destruct (Nat.eq_dec p k) as [->|Hne].
  - rewrite rset_same.
    assert (He : forall j, j <= k -> tot (rset f k l) j = tot f j).
    { induction j as [|j IHj]; intros Hj; [reflexivity|]. cbn [tot].
      rewrite IHj by lia. rewrite rset_other by lia. reflexivity. }
    rewrite He by lia. lia.
  - rewrite rset_other by lia. specialize (IH ltac:(lia) Hlt). lia.
Qed.

Lemma prog_step : forall c c', rinv c -> rstep s c c' ->
  tot (r_loc c) (sc_np s) < tot (r_loc c') (sc_np s).
Proof.
  intros c c' (I1 & _) H. inversion H as
    [c0 p l Hp Hl Hr Ho | c0 p l q Hp Hl Ho Hse Hto | c0 p l q m n1 n2 Hp Hl Ho Hrc Hfr Hnet
     | c0 p l Hp Hl Ho Hse Hrc]; subst c0 c'; cbn [r_loc]; apply tot_set; try exact Hp; rewrite Hl;
    unfold prog, b2n; cbn [l_rnd l_open l_sent l_rcvd].
  - destruct (I1 p Hp) as (_ & L2 & _). rewrite Hl in L2. destruct (L2 Ho) as (E1 & E2 & _).
    rewrite Ho, E1, E2. lia.
  - rewrite Ho, Hse. lia.
  - rewrite Ho, Hrc. lia.
  - destruct (l_open l), (l_sent l), (l_rcvd l); lia.
Qed.

Lemma tot_bound : forall c, rinv c -> forall k, k <= sc_np s -> tot (r_loc c) k <= 4 * sc_nr s * k.
Proof.
  intros c (I1 & _) k. induction k as [|k IH]; intros Hk; cbn [tot]; [lia|].
  specialize (IH ltac:(lia)). destruct (I1 k Hk) as (L1 & L2 & L3).
  assert (prog (r_loc c k) <= 4 * sc_nr s).
  { unfold prog. destruct (l_open (r_loc c k)) eqn:Ho.
    - destruct (L3 eq_refl) as (H1 & _). unfold b2n.
      destruct (l_sent (r_loc c k)), (l_rcvd (r_loc c k)); lia.
    - destruct (L2 eq_refl) as (-> & -> & _). cbn. lia. }
  rewrite Nat.mul_succ_r. lia.
Qed.

(** Every execution is finite: at most four actions per participant and round. *)
Theorem rounds_bounded : forall n c, rexec s n c -> n <= 4 * sc_nr s * sc_np s.
Proof.
  intros n c H.
  assert (n <= tot (r_loc c) (sc_np s)).
  { induction H as [|n c c' H IH Hs]; [lia|].
    pose proof (prog_step c c' (rinv_exec n c H) Hs). lia. }
  pose proof (tot_bound c (rinv_exec n c H) (sc_np s) (le_n _)). lia.
Qed.
End Proof.
