From Coq Require Import List ZArith Arith Bool Lia Relations.
From Verif Require Import TorusModel NetModel DfModel TorusSpec NetSpec TorusRoute NetProof FtProof.
Import ListNotations.

(** A wiring on which routing works: cables stay inside the machine, and from every group to every
    other group either the router itself or the routers it is told about have a cable. *)
Record sound (D : df) : Prop := Sound {
  so_a : 0 < d_a D;
  so_range : forall A G x, A < d_a D -> G < d_g D -> In x (d_conn D A G) -> x < df_switches D;
  so_len : forall A G, A < d_a D -> G < d_g D -> length (d_conn D A G) <= d_h D;
  so_cover : forall A G G', A < d_a D -> G < d_g D -> G' < d_g D -> G <> G' ->
    direct_ports D A G G' <> [] \/
    (d_to D G G' <> [] /\ forall x c, In (x, c) (d_to D G G') -> x < d_a D /\ direct_ports D x G G' <> []) }.

Lemma in_indexed : forall A (l : list A) i x, In (i, x) (indexed l) <-> nth_error l i = Some x.
Proof.
  intros A l. unfold indexed. assert (G : forall l s i (x : A), In (i, x) (combine (seq s (length l)) l) <->
    s <= i /\ nth_error l (i - s) = Some x).
  { induction l0; intros; simpl.
    - split; [tauto|]. intros [_ H]. destruct (i - s); discriminate.
    - rewrite IHl0. split.
      + intros [E|[H1 H2]]. injection E; intros; subst. rewrite Nat.sub_diag. auto.
        split; [lia|]. replace (i - s) with (S (i - S s)) by lia. auto.
      + intros [H1 H2]. destruct (Nat.eq_dec i s). subst. rewrite Nat.sub_diag in H2. injection H2; intros; subst; auto.
        right. split; [lia|]. replace (i - s) with (S (i - S s)) in H2 by lia. auto. }
  intros. rewrite G, Nat.sub_0_r. intuition lia.
Qed.

Section D.
Variable D : df.
Let a := d_a D.
Hypothesis Ha : 0 < a.

Lemma uid_A : forall A G, A < a -> df_A D (df_uid D A G) = A.
Proof. intros. unfold df_A, df_uid. rewrite Nat.add_comm. apply dm; auto. Qed.
Lemma uid_G : forall A G, A < a -> df_G D (df_uid D A G) = G.
Proof. intros. unfold df_G, df_uid. rewrite Nat.add_comm. apply dm; auto. Qed.
Lemma uid_self : forall s, df_uid D (df_A D s) (df_G D s) = s.
Proof. intros. unfold df_uid, df_A, df_G. fold a. pose proof (Nat.div_mod s a ltac:(lia)). lia. Qed.
Lemma A_lt : forall s, df_A D s < a.
Proof. intros. unfold df_A. apply Nat.mod_upper_bound. fold a. lia. Qed.
Lemma G_lt : forall s, s < df_switches D -> df_G D s < d_g D.
Proof. intros. unfold df_G, df_switches in *. apply Nat.div_lt_upper_bound; auto. fold a. lia. Qed.
Lemma uid_lt : forall A G, A < a -> G < d_g D -> df_uid D A G < df_switches D.
Proof. unfold df_uid, df_switches. intros. fold a. nia. Qed.

Definition c_local (src x : nat) : conn := Conn src (Z.of_nat (df_uid D x (df_G D src))) x (df_A D src).
Definition c_global (src h dst : nat) : conn :=
  Conn src (Z.of_nat dst) (h + a) (d_in D (df_A D src) (df_G D src) h (df_A D dst) (df_G D dst) + a).

Lemma in_df : forall src c, In c (df_conns D src) <->
  (exists x, x < a /\ x <> df_A D src /\ c = c_local src x) \/
  (exists h dst, nth_error (d_conn D (df_A D src) (df_G D src)) h = Some dst /\ df_G D dst <> df_G D src /\
     c = c_global src h dst).
Proof.
  intros. unfold df_conns. rewrite in_app_iff, !in_flat_map. split; (intros [H|H]; [left|right]).
  - destruct H as (x & Hx & Hin). apply in_seq in Hx. destruct (Nat.eqb_spec x (df_A D src)); [contradiction|].
    destruct Hin as [<-|[]]. exists x. unfold a. repeat split; auto; lia.
  - destruct H as ([h dst] & Hx & Hin). apply in_indexed in Hx.
    destruct (Nat.eqb_spec (df_G D dst) (df_G D src)); [contradiction|]. destruct Hin as [<-|[]].
    exists h, dst. auto.
  - destruct H as (x & Hx & Hne & ->). exists x. split; [apply in_seq; unfold a in *; lia|].
    destruct (Nat.eqb_spec x (df_A D src)); [congruence|]. left; auto.
  - destruct H as (h & dst & Hn & Hne & ->). exists (h, dst). split; [apply in_indexed; auto|].
    destruct (Nat.eqb_spec (df_G D dst) (df_G D src)); [congruence|]. left; auto.
Qed.
Lemma df_out_unique : forall s c c', In c (df_conns D s) -> In c' (df_conns D s) ->
  c_outport c = c_outport c' -> c = c'.
Proof.
  intros s c c' H H0 E. apply in_df in H, H0.
  destruct H as [(x & Hx & _ & ->)|(h & d & Hn & _ & ->)], H0 as [(y & Hy & _ & ->)|(h' & d' & Hn' & _ & ->)];
    cbn [c_outport c_local c_global] in E; try lia.
  - subst; auto.
  - assert (h = h') by lia. subst h'. rewrite Hn in Hn'. injection Hn'; intros; subst; auto.
Qed.

(** symmetric wiring gives paired cables *)
Definition symmetric : Prop :=
  forall A G h dst, A < a -> G < d_g D -> nth_error (d_conn D A G) h = Some dst -> df_G D dst <> G ->
    dst < df_switches D /\
    nth_error (d_conn D (df_A D dst) (df_G D dst)) (d_in D A G h (df_A D dst) (df_G D dst)) = Some (df_uid D A G) /\
    d_in D (df_A D dst) (df_G D dst) (d_in D A G h (df_A D dst) (df_G D dst)) A G = h.
Lemma sym_paired : symmetric -> cables_paired (df_conns D) (df_switches D).
Proof.
  intros S s c Hs Hin. apply in_df in Hin. pose proof (A_lt s) as HA. pose proof (G_lt s Hs) as HG.
  destruct Hin as [(x & Hx & Hne & ->)|(h & dst & Hn & Hne & ->)].
  - exists (df_uid D x (df_G D s)), (c_local (df_uid D x (df_G D s)) (df_A D s)).
    split; auto. split; auto. split; [apply uid_lt; auto|]. split.
    { apply in_df. left. exists (df_A D s). rewrite uid_A by auto. auto. }
    unfold c_local. rewrite uid_A, uid_G by auto. cbn [c_dst c_outport c_inport]. rewrite uid_self. auto.
  - destruct (S (df_A D s) (df_G D s) h dst HA HG Hn Hne) as (Hd & Hb & Hi).
    rewrite uid_self in Hb.
    exists dst, (c_global dst (d_in D (df_A D s) (df_G D s) h (df_A D dst) (df_G D dst)) s).
    split; auto. split; auto. split; auto. split; [apply in_df; right; eauto 6|].
    unfold c_global. cbn [c_dst c_outport c_inport]. rewrite Hi. auto.
Qed.
Lemma sym_unique : symmetric -> ports_unique (df_conns D) (df_switches D).
Proof. intros. apply paired_unique. apply sym_paired; auto. intros. eapply df_out_unique; eauto. Qed.

(** routing *)
Hypothesis So : sound D.
Let N := df_switches D.
Let next := far_end (df_conns D) N.

Lemma next_local : forall s x, s < N -> x < a -> x <> df_A D s -> next s x = Some (df_uid D x (df_G D s)).
Proof.
  intros. apply (far_end_in (df_conns D) N s (c_local s x)); auto.
  - apply in_df. left; eauto.
  - apply uid_lt; auto. apply G_lt; auto.
  - intros. eapply df_out_unique; eauto. apply in_df. left; eauto.
Qed.
Lemma next_global : forall s p G', s < N -> G' <> df_G D s -> In p (direct_ports D (df_A D s) (df_G D s) G') ->
  a <= p < a + d_h D /\ exists s', next s p = Some s' /\ s' < N /\ df_G D s' = G'.
Proof.
  intros s p G' Hs Hne Hin. unfold direct_ports in Hin. apply in_map_iff in Hin.
  destruct Hin as ([h dst] & <- & Hf). apply filter_In in Hf. destruct Hf as [Hi Hg].
  apply in_indexed in Hi. apply Nat.eqb_eq in Hg.
  pose proof (A_lt s) as HA. pose proof (G_lt s Hs) as HG.
  assert (h < length (d_conn D (df_A D s) (df_G D s))) by (apply nth_error_Some; congruence).
  pose proof (so_len D So _ _ HA HG).
  assert (Hd : dst < N) by (eapply so_range; eauto; eapply nth_error_In; eauto).
  fold a. split; [lia|]. exists dst. split; auto.
  apply (far_end_in (df_conns D) N s (c_global s h dst)); auto.
  - apply in_df. right. exists h, dst. repeat split; auto. congruence.
  - intros. eapply df_out_unique; eauto. apply in_df. right. exists h, dst. repeat split; auto. congruence.
Qed.

(** hops still needed *)
Definition dfm (s t : nat) : nat :=
  if s =? t then 0 else if df_G D s =? df_G D t then 1
  else match direct_ports D (df_A D s) (df_G D s) (df_G D t) with [] => 3 | _ => 2 end.
Lemma dfm_le : forall s t, dfm s t <= 3.
Proof. intros. unfold dfm. repeat (match goal with |- context [match ?b with _ => _ end] => destruct b end); lia. Qed.
Lemma dfm_zero : forall s t, dfm s t = 0 -> s = t.
Proof. unfold dfm. intros. destruct (Nat.eqb_spec s t); auto. destruct (df_G D s =? df_G D t); [discriminate|].
  destruct (direct_ports D (df_A D s) (df_G D s) (df_G D t)); discriminate. Qed.
Lemma dfm_refl : forall s, dfm s s = 0. Proof. intros. unfold dfm. rewrite Nat.eqb_refl. auto. Qed.
Lemma dfm_same : forall s t, df_G D s = df_G D t -> dfm s t <= 1.
Proof. intros. unfold dfm. rewrite H, Nat.eqb_refl. destruct (_ =? _); lia. Qed.

(** a port of the table of [s] for another group: global and into it, or to a router with a cable *)
Lemma group_port_step : forall s p G', s < N -> G' < d_g D -> G' <> df_G D s ->
  In p (group_ports D s G') ->
  (a <= p < a + d_h D /\ direct_ports D (df_A D s) (df_G D s) G' <> [] /\
     exists s', next s p = Some s' /\ s' < N /\ df_G D s' = G') \/
  (p < a /\ direct_ports D (df_A D s) (df_G D s) G' = [] /\
     next s p = Some (df_uid D p (df_G D s)) /\ df_uid D p (df_G D s) < N /\
     direct_ports D p (df_G D s) G' <> []).
Proof.
  intros s p G' Hs HG' Hne Hin. pose proof (A_lt s) as HA. pose proof (G_lt s Hs) as HG.
  unfold group_ports in Hin. destruct (direct_ports D (df_A D s) (df_G D s) G') as [|q l] eqn:Ed.
  - destruct (so_cover D So _ _ G' HA HG HG' ltac:(congruence)) as [C|[_ C]]; [congruence|].
    apply in_map_iff in Hin. destruct Hin as ([x c] & <- & Hin). cbn [fst].
    destruct (C x c Hin) as [Hx Hd]. right. split; auto. split; auto. split; [|split; auto].
    + apply next_local; auto. intro. subst x. congruence.
    + apply uid_lt; auto.
  - left. rewrite <- Ed in Hin. destruct (next_global s p G' Hs Hne Hin) as (Hp & s' & H1 & H2 & H3).
    split; auto. split; [discriminate|]. eauto.
Qed.
Lemma group_ports_some : forall s G', s < N -> G' < d_g D -> G' <> df_G D s -> group_ports D s G' <> [].
Proof.
  intros s G' Hs HG' Hne E. unfold group_ports in E. pose proof (A_lt s) as HA. pose proof (G_lt s Hs) as HG.
  destruct (so_cover D So _ _ G' HA HG HG' ltac:(congruence)) as [C|[C _]];
    destruct (direct_ports D (df_A D s) (df_G D s) G'); try congruence; try discriminate.
  apply map_eq_nil in E. congruence.
Qed.
Lemma nth_mod_in : forall A (l : list A) k d, l <> [] -> In (nth (k mod length l) l d) l.
Proof. intros. apply nth_In. apply Nat.mod_upper_bound. destruct l; [congruence|discriminate]. Qed.

Lemma to_switch_step : forall s t k, s < N -> t < N -> s <> t ->
  to_switch D s k t < a + d_h D /\
  exists s', next s (to_switch D s k t) = Some s' /\ s' < N /\ dfm s' t < dfm s t /\
    ((df_G D s = df_G D t /\ to_switch D s k t < a /\ s' = t) \/
     (df_G D s <> df_G D t /\ df_G D s' = df_G D t /\ a <= to_switch D s k t) \/
     (df_G D s <> df_G D t /\ to_switch D s k t < a /\ df_G D s' = df_G D s /\
        direct_ports D (df_A D s') (df_G D s') (df_G D t) <> [])).
Proof.
  intros s t k Hs Ht Hne. unfold to_switch. pose proof (A_lt s) as HA. pose proof (G_lt s Hs) as HG.
  destruct (Nat.eqb_spec (df_G D t) (df_G D s)) as [E|E].
  - assert (HA' : df_A D t <> df_A D s). { intro. apply Hne. rewrite <- (uid_self s), <- (uid_self t). congruence. }
    pose proof (A_lt t). split; [lia|]. exists t. rewrite next_local by auto. rewrite <- E, uid_self.
    split; auto. split; auto. split.
    + rewrite dfm_refl. unfold dfm. destruct (Nat.eqb_spec s t); [congruence|]. rewrite E, Nat.eqb_refl. lia.
    + left. auto.
  - pose proof (G_lt t Ht) as HG'.
    pose proof (nth_mod_in _ (group_ports D s (df_G D t)) k 0 (group_ports_some s _ Hs HG' E)) as Hin.
    set (p := nth (k mod length (group_ports D s (df_G D t))) (group_ports D s (df_G D t)) 0) in *.
    destruct (group_port_step s p _ Hs HG' E Hin) as [(Hp & Hd & s' & Hn & Hs' & Hg)|(Hp & Hd & Hn & Hs' & Hd')].
    + split; [lia|]. exists s'. split; auto. split; auto. split.
      * pose proof (dfm_same s' t Hg). unfold dfm at 2. destruct (Nat.eqb_spec s t); [congruence|].
        destruct (Nat.eqb_spec (df_G D s) (df_G D t)); [congruence|].
        destruct (direct_ports D (df_A D s) (df_G D s) (df_G D t)); lia.
      * right. left. repeat split; auto; lia.
    + split; [lia|]. exists (df_uid D p (df_G D s)). split; auto. split; auto. split.
      * unfold dfm. destruct (Nat.eqb_spec s t); [congruence|].
        destruct (Nat.eqb_spec (df_G D s) (df_G D t)); [congruence|]. rewrite Hd.
        rewrite uid_A, uid_G by auto. destruct (_ =? _); [lia|]. destruct (_ =? _); [lia|].
        destruct (direct_ports D p (df_G D s) (df_G D t)); [congruence|lia].
      * right. right. rewrite uid_A, uid_G by auto. auto.
Qed.

(** ** minimal router *)
Section Min.
Variables (conc nid : nat) (ks : nat -> nat).
Let t := nid / conc.
Hypothesis Ht : t < N.
Let ej := a + d_h D + nid mod conc.
Let route := df_route D conc ks nid.

Lemma df_walk : forall n s ng, s < N -> dfm s t < n ->
  exists tr, gwalk next route n s ng = Some (tr, t, ej) /\ length tr <= dfm s t.
Proof.
  induction n; intros s ng Hs Hm; [lia|]. cbn [gwalk]. unfold route at 1, df_route. fold t.
  destruct (Nat.eqb_spec t s) as [E|E].
  - exists []. subst s. split; auto. simpl. lia.
  - destruct (to_switch_step s t (ks s) Hs Ht ltac:(congruence)) as (Hp & s' & Hn & Hs' & Hd & _).
    assert (W : forall ng', exists tr, gwalk next route n s' ng' = Some (tr, t, ej) /\ length tr <= dfm s' t).
    { intros. apply IHn; auto. lia. }
    fold a. set (p := to_switch D s (ks s) t) in *.
    destruct (df_G D t =? df_G D s).
    + destruct (W ng) as (tr & Hw & Hl). exists (Chan s p ng :: tr). rewrite Hn, Hw. split; auto. simpl. lia.
    + destruct (Nat.leb_spec (a + d_h D) p); [lia|].
      destruct (W (if a <=? p then (ng + 1) mod 4 else ng)) as (tr & Hw & Hl).
      exists (Chan s p ng :: tr). rewrite Hn, Hw. split; auto. simpl. lia.
Qed.

(** what holds at every switch on the way: at most one global hop so far *)
Definition dinv (s ng : nat) : Prop := s < N /\ ng <= 1 /\ (df_G D s <> df_G D t -> ng = 0).
Lemma dinv_step : forall s ng p vc ng' s', dinv s ng -> route s ng = Forward p vc ng' -> next s p = Some s' ->
  vc = ng /\ s <> t /\ p = to_switch D s (ks s) t /\ dinv s' ng' /\ (p < a -> ng' = ng) /\ (a <= p -> ng' = ng + 1).
Proof.
  intros s ng p vc ng' s' (Hs & Hn & Hz) R Nx. unfold route, df_route in R. fold t in R.
  destruct (Nat.eqb_spec t s) as [E|E]; [discriminate|]. fold a in R.
  destruct (to_switch_step s t (ks s) Hs Ht ltac:(congruence)) as (Hp & s1 & Hn1 & Hs1 & Hd & C).
  destruct (Nat.eqb_spec (df_G D t) (df_G D s)) as [Eg|Eg].
  - injection R; intros; subst vc ng' p. destruct C as [(_ & C1 & ->)|[(C & _)|(C & _)]]; try congruence.
    rewrite Hn1 in Nx. injection Nx; intros; subst s'. repeat split; auto; lia.
  - destruct (Nat.leb_spec (a + d_h D) (to_switch D s (ks s) t)) as [Hle|Hle]; [discriminate|].
    injection R; intros; subst vc ng' p. rewrite Hn1 in Nx. injection Nx; intros; subst s'. clear R Nx.
    assert (ng = 0) by (apply Hz; congruence). subst ng.
    split; auto. split; auto. split; auto.
    destruct (Nat.leb_spec a (to_switch D s (ks s) t)) as [Hle'|Hle'].
    + split; [|split; intros; [lia|reflexivity]]. split; auto. split; [simpl; lia|].
      intros Hc. destruct C as [(C1 & C2 & C3)|[(C1 & C2 & C3)|(C1 & C2 & C3 & C4)]]; [lia|congruence|lia].
    + split; [|split; intros; [reflexivity|lia]]. split; auto.
Qed.
Lemma df_rank : forall s ng p vc ng' s' p2 vc2 ng2, dinv s ng -> route s ng = Forward p vc ng' ->
  next s p = Some s' -> route s' ng' = Forward p2 vc2 ng2 ->
  2 * vc + (if p <? a then 0 else 1) < 2 * vc2 + (if p2 <? a then 0 else 1).
Proof.
  intros s ng p vc ng' s' p2 vc2 ng2 I R Nx R2.
  destruct (dinv_step _ _ _ _ _ _ I R Nx) as (-> & Hne & Ep & I' & L1 & L2).
  assert (Hs' := I'). destruct Hs' as (Hs' & _).
  assert (Ht' : t <> s'). { intro. unfold route, df_route in R2. fold t in R2.
    rewrite H, Nat.eqb_refl in R2. discriminate. }
  destruct (to_switch_step s' t (ks s') Hs' Ht ltac:(congruence)) as (Hp2 & s2 & Hn2 & _ & _ & C2).
  assert (E2 : p2 = to_switch D s' (ks s') t /\ vc2 = ng').
  { unfold route, df_route in R2. fold t in R2. destruct (Nat.eqb_spec t s'); [congruence|]. fold a in R2.
    destruct (df_G D t =? df_G D s').
    - injection R2; intros; auto.
    - destruct (_ <=? _); [discriminate|]. injection R2; intros; auto. }
  destruct E2 as [-> ->].
  destruct I as (Hs & _). destruct (to_switch_step s t (ks s) Hs Ht Hne) as (Hp & s1 & Hn1 & _ & _ & C).
  rewrite <- Ep in *. rewrite Hn1 in Nx. injection Nx; intros; subst s1.
  destruct C as [(C1 & C3 & ->)|[(C1 & C4 & C3)|(C1 & C3 & C4 & C5)]]; [congruence| |].
  - rewrite L2 by auto. destruct (Nat.ltb_spec p a); [lia|].
    destruct (_ <? a); lia.
  - rewrite L1 by auto. destruct (Nat.ltb_spec p a); [|lia].
    destruct C2 as [(B1 & _)|[(B1 & B2 & B3)|(B1 & B2 & B3 & B4)]].
    + rewrite C4 in B1. congruence.
    + destruct (Nat.ltb_spec (to_switch D s' (ks s') t) a); lia.
    + exfalso. assert (Hin := nth_mod_in _ (group_ports D s' (df_G D t)) (ks s') 0
        (group_ports_some s' _ Hs' (G_lt t Ht) ltac:(congruence))).
      unfold to_switch in B2. destruct (Nat.eqb_spec (df_G D t) (df_G D s')); [congruence|].
      destruct (group_port_step s' _ _ Hs' (G_lt t Ht) ltac:(congruence) Hin) as [(X & _)|(_ & X & _)]; [lia|congruence].
Qed.
Lemma df_vcs : forall n s ng tr e p, dinv s ng -> gwalk next route n s ng = Some (tr, e, p) ->
  Forall (fun c => ch_vc c < 2) tr.
Proof.
  induction n; intros s ng tr e p I W; [discriminate|]. cbn [gwalk] in W.
  destruct (route s ng) as [q|q vc ng'|] eqn:R; try discriminate.
  - injection W; intros; subst; constructor.
  - destruct (next s q) as [s'|] eqn:Nx; try discriminate.
    destruct (gwalk next route n s' ng') as [[[tr' e'] p']|] eqn:W'; try discriminate.
    injection W; intros; subst. destruct (dinv_step _ _ _ _ _ _ I R Nx) as (-> & _ & _ & I' & _).
    constructor; [|eapply IHn; eauto]. cbn [ch_vc]. destruct I as (_ & ? & _). lia.
Qed.
End Min.
End D.
