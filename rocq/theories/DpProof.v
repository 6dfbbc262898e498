From Coq Require Import List ZArith Arith Bool Lia Relations.
From Verif Require Import TorusModel NetModel DfModel DpModel TorusSpec NetSpec TorusRoute NetProof FtProof DfProof DfWire.
Import ListNotations.

Section Dp.
Variable D : df.
Notation a := (d_a D).
Notation g := (d_g D).
Notation L := (dp_leaves D).
Hypothesis Ha : 0 < a.
Hypothesis Hg : 0 < g.

Lemma L_pos : 0 < L.
Proof. unfold dp_leaves. nia. Qed.
Lemma in_grp : forall x G, x < a -> G < g -> G * a + x < L.
Proof. intros. unfold dp_leaves. nia. Qed.
Lemma up_row : forall r x G, x < a -> G < g -> dp_row D (dp_uid D r x G) = r.
Proof.
  intros. unfold dp_row, dp_uid. pose proof (in_grp x G H H0).
  rewrite <- Nat.add_assoc. symmetry. apply Nat.div_unique with (G * a + x); lia.
Qed.
Lemma up_rel : forall r x G, x < a -> G < g -> dp_uid D r x G mod L = G * a + x.
Proof.
  intros. unfold dp_uid. pose proof (in_grp x G H H0). rewrite <- Nat.add_assoc.
  symmetry. apply Nat.mod_unique with r; lia.
Qed.
Lemma up_G : forall r x G, x < a -> G < g -> dp_G D (dp_uid D r x G) = G.
Proof. intros. unfold dp_G. rewrite up_rel by auto. symmetry. apply Nat.div_unique with x; lia. Qed.
Lemma up_A : forall r x G, x < a -> G < g -> dp_A D (dp_uid D r x G) = x.
Proof.
  intros. unfold dp_A, dp_uid, dp_leaves. symmetry.
  apply Nat.mod_unique with (r * g + G); [auto|]. nia.
Qed.
Lemma up_lt : forall r x G, r < 2 -> x < a -> G < g -> dp_uid D r x G < dp_switches D.
Proof. intros. unfold dp_uid, dp_switches, dp_leaves. pose proof (in_grp x G H0 H1). unfold dp_leaves in *. nia. Qed.
Lemma A_lt : forall s, dp_A D s < a.
Proof. intros. apply Nat.mod_upper_bound. lia. Qed.
Lemma G_lt : forall s, dp_G D s < g.
Proof.
  intros. unfold dp_G. pose proof L_pos. pose proof (Nat.mod_upper_bound s L ltac:(lia)).
  apply Nat.div_lt_upper_bound; [lia|]. unfold dp_leaves in *. lia.
Qed.
Lemma row_lt : forall s, s < dp_switches D -> dp_row D s < 2.
Proof. intros. unfold dp_row. apply Nat.div_lt_upper_bound; [pose proof L_pos; lia|]. unfold dp_switches, dp_leaves in *. lia. Qed.
Lemma row_leaf : forall s, dp_row D s = 0 <-> s < L.
Proof. intros. unfold dp_row. pose proof L_pos. rewrite Nat.div_small_iff by lia. tauto. Qed.
Lemma up_self : forall s, dp_uid D (dp_row D s) (dp_A D s) (dp_G D s) = s.
Proof.
  intros. unfold dp_uid, dp_row, dp_A, dp_G. pose proof L_pos.
  pose proof (Nat.div_mod s L ltac:(lia)) as E. pose proof (Nat.div_mod (s mod L) a ltac:(lia)) as E2.
  assert (X : (s mod L) mod a = s mod a).
  { rewrite E at 2. unfold dp_leaves at 2. rewrite <- Nat.mul_assoc, (Nat.add_comm (a * _)), (Nat.mul_comm a).
    rewrite Nat.mod_add by lia. auto. }
  rewrite <- X. lia.
Qed.
(** a number below the leaf count is group and position *)
Lemma leaf_G : forall s, s < L -> dp_G D s = s / a.
Proof. intros. unfold dp_G. rewrite Nat.mod_small; auto. Qed.

Definition c_up (s x : nat) : conn := Conn s (Z.of_nat (dp_uid D 1 x (dp_G D s))) x (dp_A D s).
Definition c_down (s x : nat) : conn := Conn s (Z.of_nat (dp_uid D 0 x (dp_G D s))) x (dp_A D s).
Definition c_glob (s p rel : nat) : conn :=
  Conn s (Z.of_nat (rel + L)) (p + a) (a + d_in D (dp_A D s) (dp_G D s) p (rel mod a) (rel / a)).

Lemma in_leaf : forall s c, dp_row D s = 0 -> (In c (dp_conns D s) <-> exists x, x < a /\ c = c_up s x).
Proof.
  intros s c R. unfold dp_conns. rewrite R. cbn [Nat.eqb]. rewrite in_map_iff. split.
  - intros (x & <- & Hx). apply in_seq in Hx. exists x. split; [lia|auto].
  - intros (x & Hx & ->). exists x. split; auto. apply in_seq. lia.
Qed.
Lemma in_upper : forall s c, dp_row D s <> 0 -> (In c (dp_conns D s) <->
  (exists x, x < a /\ c = c_down s x) \/
  (exists p rel, nth_error (d_conn D (dp_A D s) (dp_G D s)) p = Some rel /\ c = c_glob s p rel)).
Proof.
  intros s c R. unfold dp_conns. destruct (Nat.eqb_spec (dp_row D s) 0); [contradiction|].
  rewrite in_app_iff, !in_map_iff. split; (intros [H|H]; [left|right]).
  - destruct H as (x & <- & Hx). apply in_seq in Hx. exists x. split; [lia|auto].
  - destruct H as ([p rel] & <- & Hx). apply in_indexed in Hx. exists p, rel. auto.
  - destruct H as (x & Hx & ->). exists x. split; auto. apply in_seq. lia.
  - destruct H as (p & rel & Hn & ->). exists (p, rel). split; auto. apply in_indexed; auto.
Qed.
Lemma dp_out_unique : forall s c c', In c (dp_conns D s) -> In c' (dp_conns D s) ->
  c_outport c = c_outport c' -> c = c'.
Proof.
  intros s c c' H H0 E. destruct (Nat.eq_dec (dp_row D s) 0) as [R|R].
  - apply in_leaf in H, H0; auto. destruct H as (x & Hx & ->), H0 as (y & Hy & ->). cbn in E. congruence.
  - apply in_upper in H, H0; auto.
    destruct H as [(x & Hx & ->)|(h & d & Hn & ->)], H0 as [(y & Hy & ->)|(h' & d' & Hn' & ->)];
      cbn [c_outport c_down c_glob] in E; try lia.
    + congruence.
    + assert (h = h') by lia. subst h'. rewrite Hn in Hn'. injection Hn'; intros; subst; auto.
Qed.

(** The wiring keeps its cables between different groups, and lists each from both ends. *)
Definition no_self : Prop := forall A G h dst, A < a -> G < g -> nth_error (d_conn D A G) h = Some dst -> df_G D dst <> G.

Lemma dp_paired : symmetric D -> no_self -> cables_paired (dp_conns D) (dp_switches D).
Proof.
  intros S NS s c Hs Hin. pose proof (A_lt s) as HA. pose proof (G_lt s) as HG.
  destruct (Nat.eq_dec (dp_row D s) 0) as [R|R].
  - apply in_leaf in Hin; auto. destruct Hin as (x & Hx & ->).
    exists (dp_uid D 1 x (dp_G D s)), (c_down (dp_uid D 1 x (dp_G D s)) (dp_A D s)).
    split; [auto|]. split; [auto|]. split; [apply up_lt; auto|]. split.
    { apply in_upper; [rewrite up_row; auto|]. left. eauto. }
    cbn [c_dst c_outport c_inport c_up c_down]. rewrite up_G, up_A by auto.
    split; [|split; auto]. f_equal. rewrite <- R. apply up_self.
  - assert (R1 : dp_row D s = 1) by (pose proof (row_lt s Hs); lia).
    apply in_upper in Hin; auto. destruct Hin as [(x & Hx & ->)|(p & rel & Hn & ->)].
    + exists (dp_uid D 0 x (dp_G D s)), (c_up (dp_uid D 0 x (dp_G D s)) (dp_A D s)).
      split; [auto|]. split; [auto|]. split; [apply up_lt; auto|]. split.
      { apply in_leaf; [rewrite up_row; auto|]. eauto. }
      cbn [c_dst c_outport c_inport c_up c_down]. rewrite up_G, up_A by auto.
      split; [|split; auto]. f_equal. rewrite <- R1. apply up_self.
    + pose proof (NS _ _ _ _ HA HG Hn) as NE.
      destruct (S _ _ _ _ HA HG Hn NE) as (B1 & B2 & B3). unfold df_switches in B1.
      assert (HA' : rel mod a < a) by (apply Nat.mod_upper_bound; lia).
      assert (HG' : rel / a < g) by (apply Nat.div_lt_upper_bound; lia).
      assert (E : rel + L = dp_uid D 1 (rel mod a) (rel / a)).
      { unfold dp_uid. pose proof (Nat.div_mod rel a ltac:(lia)). lia. }
      exists (rel + L), (c_glob (rel + L) (d_in D (dp_A D s) (dp_G D s) p (rel mod a) (rel / a))
                            (dp_uid D 0 (dp_A D s) (dp_G D s))).
      split; [auto|]. split; [auto|]. split; [rewrite E; apply up_lt; auto|]. split.
      { apply in_upper; [rewrite E, up_row; auto|]. right. eexists _, _. split; [|reflexivity].
        rewrite E, up_A, up_G by auto. unfold df_A, df_G in B2. rewrite B2. f_equal. unfold df_uid, dp_uid. lia. }
      assert (U : dp_uid D 0 (dp_A D s) (dp_G D s) + L = s).
      { rewrite <- (up_self s) at 3. rewrite R1. unfold dp_uid. lia. }
      cbn [c_dst c_outport c_inport c_glob]. split; [rewrite U; auto|]. split; [lia|].
      unfold dp_uid at 1 2. cbn [Nat.mul]. rewrite Nat.add_0_l. rewrite E, up_A, up_G by auto.
      unfold df_A, df_G in B3.
      replace ((dp_G D s * a + dp_A D s) mod a) with (dp_A D s) by (apply Nat.mod_unique with (dp_G D s); lia).
      replace ((dp_G D s * a + dp_A D s) / a) with (dp_G D s) by (apply Nat.div_unique with (dp_A D s); lia).
      rewrite B3. lia.
Qed.
Lemma dp_unique : symmetric D -> no_self -> ports_unique (dp_conns D) (dp_switches D).
Proof. intros. apply paired_unique. apply dp_paired; auto. intros. eapply dp_out_unique; eauto. Qed.

(** ** the far ends *)
Notation next := (far_end (dp_conns D) (dp_switches D)).
Lemma far_up : forall s x, s < L -> x < a -> next s x = Some (dp_uid D 1 x (dp_G D s)).
Proof.
  intros s x Hs Hx. apply row_leaf in Hs. pose proof (G_lt s).
  apply far_end_in with (c := c_up s x).
  - apply in_leaf; eauto.
  - reflexivity.
  - apply up_lt; auto.
  - intros. eapply dp_out_unique; eauto. apply in_leaf; eauto.
Qed.
Lemma far_down : forall s x, dp_row D s <> 0 -> x < a -> next s x = Some (dp_uid D 0 x (dp_G D s)).
Proof.
  intros s x Hs Hx. pose proof (G_lt s).
  apply far_end_in with (c := c_down s x).
  - apply in_upper; eauto.
  - reflexivity.
  - apply up_lt; auto.
  - intros. eapply dp_out_unique; eauto. apply in_upper; eauto.
Qed.
Lemma far_glob : forall s p rel, dp_row D s <> 0 -> nth_error (d_conn D (dp_A D s) (dp_G D s)) p = Some rel -> rel < L ->
  next s (p + a) = Some (rel + L).
Proof.
  intros s p rel Hs Hn Hr.
  apply far_end_in with (c := c_glob s p rel).
  - apply in_upper; eauto.
  - reflexivity.
  - unfold dp_switches, dp_leaves in *. lia.
  - intros. eapply dp_out_unique; eauto. apply in_upper; eauto.
Qed.

(** ** routing: what the constructor checks, and that no link is missing *)
Notation cov := (dp_cov D).
Record wired : Prop := Wired {
  w_g : 2 <= g;
  w_check : forall my, my < dp_switches D -> dp_check D my = true;
  w_len : forall A G, A < a -> G < g -> length (d_conn D A G) = d_h D;
  w_range : forall A G x, A < a -> G < g -> In x (d_conn D A G) -> x < L }.
Hypothesis W : wired.

Lemma cov_pos : 0 < cov /\ cov * (g - 1) = d_h D.
Proof.
  pose proof (w_check W 0 ltac:(unfold dp_switches; nia)) as C. pose proof (w_g W).
  unfold dp_check in C. apply andb_true_iff in C as [C _]. apply andb_true_iff in C as [C1 C2].
  apply negb_true_iff, Nat.eqb_neq in C1. apply Nat.eqb_eq in C2. split; [lia|].
  unfold dp_cov in *. pose proof (Nat.div_mod (d_h D) (g - 1) ltac:(lia)). lia.
Qed.
(** a global port leads to the group it stands for *)
Lemma port_group : forall s p, s < dp_switches D -> dp_row D s <> 0 -> p < d_h D ->
  exists s', next s (p + a) = Some s' /\ s' < dp_switches D /\ dp_row D s' = 1 /\
    dp_G D s' = (if dp_G D s <=? p / cov then p / cov + 1 else p / cov).
Proof.
  intros s p Hs R Hp. pose proof (A_lt s) as HA. pose proof (G_lt s) as HG.
  destruct (nth_error (d_conn D (dp_A D s) (dp_G D s)) p) as [rel|] eqn:N.
  2:{ apply nth_error_None in N. rewrite (w_len W) in N by auto. lia. }
  pose proof (w_range W _ _ _ HA HG (nth_error_In _ _ N)) as Hr.
  exists (rel + L). split; [apply far_glob; auto|]. split; [unfold dp_switches, dp_leaves in *; lia|].
  pose proof L_pos.
  assert (R' : dp_row D (rel + L) = 1).
  { unfold dp_row. symmetry. apply Nat.div_unique with rel; lia. }
  split; auto.
  assert (E : dp_G D (rel + L) = dp_G D rel).
  { unfold dp_G. f_equal. replace (rel + L) with (rel + 1 * L) by lia. apply Nat.mod_add. lia. }
  rewrite E. pose proof (w_check W s Hs) as C. unfold dp_check in C. apply andb_true_iff in C as [_ C].
  rewrite forallb_forall in C. specialize (C (p, rel)). cbn in C.
  symmetry. apply Nat.eqb_eq. apply C. apply in_indexed; auto.
Qed.

Lemma div_block : forall q r, r < cov -> (q * cov + r) / cov = q.
Proof. intros. symmetry. apply Nat.div_unique with r; lia. Qed.
Lemma to_group : forall s G' rot, s < dp_switches D -> dp_row D s <> 0 -> G' < g -> G' <> dp_G D s -> rot < cov ->
  exists s', next s (dp_group_port D (dp_G D s) G' rot) = Some s' /\ s' < dp_switches D /\ dp_row D s' = 1 /\ dp_G D s' = G'.
Proof.
  intros s G' rot Hs R HG' NE Hr. destruct cov_pos as [C1 C2]. pose proof (G_lt s) as HG.
  unfold dp_group_port. set (q := if dp_G D s <? G' then G' - 1 else G').
  assert (Hq : q < g - 1). { unfold q. destruct (Nat.ltb_spec (dp_G D s) G'); lia. }
  destruct (port_group s (q * cov + rot) Hs R ltac:(nia)) as (s' & N & H1 & H2 & H3).
  exists s'. split; [exact N|]. split; [auto|]. split; [auto|]. rewrite H3, div_block by auto.
  unfold q. destruct (Nat.ltb_spec (dp_G D s) G'); [destruct (Nat.leb_spec (dp_G D s) (G' - 1))|destruct (Nat.leb_spec (dp_G D s) G')]; lia.
Qed.
Lemma to_detour : forall s v, s < dp_switches D -> dp_row D s <> 0 -> v < cov * g -> v / cov <> dp_G D s ->
  exists s', next s (dp_detour D (dp_G D s) v) = Some s' /\ s' < dp_switches D /\ dp_row D s' = 1 /\ dp_G D s' = v / cov.
Proof.
  intros s v Hs R Hv NE. destruct cov_pos as [C1 C2]. pose proof (G_lt s) as HG.
  unfold dp_detour. pose proof (Nat.div_mod v cov ltac:(lia)) as E.
  pose proof (Nat.mod_upper_bound v cov ltac:(lia)) as Hm.
  assert (v / cov < g) by (apply Nat.div_lt_upper_bound; lia).
  set (q := v / cov) in *. set (r := v mod cov) in *.
  destruct (Nat.ltb_spec (dp_G D s) q).
  - replace (v - cov) with ((q - 1) * cov + r) by nia.
    destruct (port_group s ((q - 1) * cov + r) Hs R ltac:(nia)) as (s' & N & H1 & H2 & H3).
    exists s'. split; [exact N|]. split; [auto|]. split; [auto|]. rewrite H3, div_block by auto.
    destruct (Nat.leb_spec (dp_G D s) (q - 1)); lia.
  - replace v with (q * cov + r) by nia.
    destruct (port_group s (q * cov + r) Hs R ltac:(nia)) as (s' & N & H1 & H2 & H3).
    exists s'. split; [exact N|]. split; [auto|]. split; [auto|]. rewrite H3, div_block by auto.
    destruct (Nat.leb_spec (dp_G D s) q); lia.
Qed.

Section Route.
Variables (conc nid : nat) (ks : nat -> nat).
Notation t := (nid / conc).
Hypothesis Ht : t < L.

Lemma row_ne : forall s, dp_row D s = 1 -> (t =? s) = false.
Proof. intros s R. apply Nat.eqb_neq. intros E. apply row_leaf in Ht. rewrite E in Ht. congruence. Qed.
Lemma t_self : dp_uid D 0 (t mod a) (dp_G D t) = t.
Proof. apply row_leaf in Ht. pose proof (up_self t). rewrite Ht in H. auto. Qed.
Lemma mod_a : forall k, k mod a < a.
Proof. intros. apply Nat.mod_upper_bound. lia. Qed.
Lemma mod_cov : forall k, k mod cov < cov.
Proof. intros. apply Nat.mod_upper_bound. destruct cov_pos. lia. Qed.

(** the order in which a packet uses channels: up, global on channel 0, global on channel 1, down *)
Definition dp_rank (c : chan) : nat :=
  if dp_row D (ch_switch c) =? 0 then 0 else if ch_port c <? a then 3 else 1 + ch_vc c.
Lemma rank_up : forall s p vc, dp_row D s = 0 -> dp_rank (Chan s p vc) = 0.
Proof. intros. unfold dp_rank. cbn. rewrite H. auto. Qed.
Lemma rank_down : forall s p vc, dp_row D s = 1 -> p < a -> dp_rank (Chan s p vc) = 3.
Proof. intros. unfold dp_rank. cbn [ch_switch ch_port]. rewrite H. cbn [Nat.eqb]. apply Nat.ltb_lt in H0. rewrite H0. auto. Qed.
Lemma rank_glob : forall s p vc, dp_row D s = 1 -> a <= p -> dp_rank (Chan s p vc) = 1 + vc.
Proof. intros. unfold dp_rank. cbn [ch_switch ch_port ch_vc]. rewrite H. cbn [Nat.eqb]. apply Nat.ltb_ge in H0. rewrite H0. auto. Qed.

(** minimal routing, step by step *)
Lemma min_down : forall s f, s < dp_switches D -> dp_row D s = 1 -> dp_G D s = dp_G D t ->
  gwalk next (dp_route D conc ks nid) (S (S f)) s tt = Some ([Chan s (t mod a) 0], t, nid mod conc + a).
Proof.
  intros s f Hs R E. cbn [gwalk]. unfold dp_route at 1. rewrite (row_ne s R), R, E, Nat.eqb_refl. cbn [Nat.eqb].
  rewrite far_down by (try apply mod_a; lia). rewrite E, t_self. cbn [gwalk]. unfold dp_route.
  rewrite Nat.eqb_refl. auto.
Qed.
Lemma min_global : forall s f, s < dp_switches D -> dp_row D s = 1 -> dp_G D s <> dp_G D t ->
  exists s', s' < dp_switches D /\ dp_row D s' = 1 /\ gwalk next (dp_route D conc ks nid) (S (S (S f))) s tt =
    Some ([Chan s (dp_group_port D (dp_G D s) (dp_G D t) (ks s mod cov)) 0; Chan s' (t mod a) 0], t, nid mod conc + a).
Proof.
  intros s f Hs R NE. destruct (to_group s (dp_G D t) (ks s mod cov) Hs ltac:(lia) (G_lt t) ltac:(auto) (mod_cov _)) as (s' & N & H1 & H2 & H3).
  exists s'. split; auto. split; auto. remember (S (S f)) as f2. cbn [gwalk]. unfold dp_route at 1.
  rewrite (row_ne s R), R. cbn [Nat.eqb]. apply Nat.eqb_neq in NE. rewrite NE, N. subst f2.
  rewrite min_down by auto. auto.
Qed.
Definition dp_hops (s t : nat) : nat := if s =? t then 0 else if dp_G D s =? dp_G D t then 2 else 3.
Lemma min_walk : forall s, s < L -> exists tr,
  gwalk next (dp_route D conc ks nid) 4 s tt = Some (tr, t, nid mod conc + a) /\ length tr = dp_hops s t /\
  Forall (fun c => ch_vc c = 0) tr /\
  map dp_rank tr = (if s =? t then [] else if dp_G D s =? dp_G D t then [0; 3] else [0; 1; 3]).
Proof.
  intros s Hs. unfold dp_hops. destruct (Nat.eqb_spec s t) as [->|NE].
  { exists []. cbn [gwalk]. unfold dp_route. rewrite Nat.eqb_refl. auto. }
  pose proof (proj2 (row_leaf s) Hs) as R. set (u := dp_uid D 1 (ks s mod a) (dp_G D s)).
  assert (Ru : dp_row D u = 1) by (apply up_row; [apply mod_a|apply G_lt]).
  assert (Gu : dp_G D u = dp_G D s) by (apply up_G; [apply mod_a|apply G_lt]).
  assert (Hu : u < dp_switches D) by (apply up_lt; [lia|apply mod_a|apply G_lt]).
  assert (F : forall f, gwalk next (dp_route D conc ks nid) (S f) s tt =
    match gwalk next (dp_route D conc ks nid) f u tt with Some (tr, e, p) => Some (Chan s (ks s mod a) 0 :: tr, e, p) | None => None end).
  { intros f. cbn [gwalk]. unfold dp_route at 1. destruct (Nat.eqb_spec t s); [congruence|]. rewrite R. cbn [Nat.eqb].
    rewrite far_up by (auto using mod_a). auto. }
  rewrite F. destruct (Nat.eqb_spec (dp_G D s) (dp_G D t)) as [E|E].
  - rewrite min_down by (auto; congruence). eexists. split; [reflexivity|]. split; auto. split; [repeat constructor|].
    cbn [map]. rewrite rank_up, rank_down by auto using mod_a. auto.
  - destruct (min_global u 0 Hu Ru ltac:(congruence)) as (s' & H1 & H2 & ->). eexists. split; [reflexivity|].
    split; auto. split; [repeat constructor|].
    cbn [map]. rewrite rank_up, rank_glob, rank_down by (auto using mod_a; unfold dp_group_port; lia). auto.
Qed.

(** PAR *)
Variable dec : nat -> bool * nat.
Hypothesis Hd : dp_dec_ok D t dec.
Notation par := (dp_par D conc ks dec nid).
Lemma par_down : forall s st vc f, s < dp_switches D -> dp_row D s = 1 -> dp_G D s = dp_G D t ->
  gwalk next par (S (S f)) s (st, vc) = Some ([Chan s (t mod a) vc], t, nid mod conc + a).
Proof.
  intros s st vc f Hs R E. cbn [gwalk]. unfold dp_par at 1. rewrite R, E, Nat.eqb_refl. cbn [Nat.eqb].
  rewrite far_down by (try apply mod_a; lia). rewrite E, t_self. cbn [gwalk]. unfold dp_par.
  rewrite Nat.eqb_refl. apply row_leaf in Ht. rewrite Ht. auto.
Qed.
Lemma par_continue : forall s vc f, s < dp_switches D -> dp_row D s = 1 -> dp_G D s <> dp_G D t ->
  exists s', s' < dp_switches D /\ dp_row D s' = 1 /\ dp_G D s' = dp_G D t /\
    gwalk next par (S (S (S f))) s (DpValiant, vc) =
    Some ([Chan s (dp_group_port D (dp_G D s) (dp_G D t) (ks s mod cov)) 1; Chan s' (t mod a) 1], t, nid mod conc + a).
Proof.
  intros s vc f Hs R NE. destruct (to_group s (dp_G D t) (ks s mod cov) Hs ltac:(lia) (G_lt t) ltac:(auto) (mod_cov _)) as (s' & N & H1 & H2 & H3).
  exists s'. repeat (split; auto). remember (S (S f)) as f2. cbn [gwalk]. unfold dp_par at 1.
  rewrite R. cbn [Nat.eqb]. apply Nat.eqb_neq in NE. rewrite NE, N. subst f2.
  rewrite par_down by auto. auto.
Qed.
(** at an upper switch of the source group: either straight on, or by one other group *)
Lemma par_first : forall s vc, s < dp_switches D -> dp_row D s = 1 -> dp_G D s <> dp_G D t ->
  (exists p s', a <= p /\ s' < dp_switches D /\ dp_row D s' = 1 /\ dp_G D s' = dp_G D t /\
    gwalk next par 4 s (DpInitial, vc) = Some ([Chan s p 0; Chan s' (t mod a) 0], t, nid mod conc + a)) \/
  (2 < g /\ fst (dec s) = true /\ exists p i q s', a <= p /\ i < dp_switches D /\ dp_row D i = 1 /\ dp_G D i <> dp_G D s /\ dp_G D i <> dp_G D t /\
    a <= q /\ s' < dp_switches D /\ dp_row D s' = 1 /\ dp_G D s' = dp_G D t /\
    gwalk next par 4 s (DpInitial, vc) = Some ([Chan s p 0; Chan i q 1; Chan s' (t mod a) 1], t, nid mod conc + a)).
Proof.
  intros s vc Hs R NE. pose proof NE as NE'. apply Nat.eqb_neq in NE'.
  destruct ((2 <? g) && fst (dec s)) eqn:V.
  - right. pose proof V as V'. apply andb_true_iff in V' as [V1 V2]. apply Nat.ltb_lt in V1. split; auto. split; auto.
    destruct (Hd s V1 NE Hs) as (D1 & D2 & D3).
    destruct (to_detour s (snd (dec s)) Hs ltac:(lia) D1 D2) as (i & N & H1 & H2 & H3).
    destruct (par_continue i 0 0 H1 H2 ltac:(congruence)) as (s' & S1 & S2 & S3 & Hw).
    eexists _, i, _, s'. split; [|split; [exact H1|split; [exact H2|split; [rewrite H3; exact D2|split; [rewrite H3; exact D3|]]]]].
    2:{ split; [|split; [exact S1|split; [exact S2|split; [exact S3|]]]].
        2:{ change 4 with (S 3). cbn [gwalk]. unfold dp_par at 1. rewrite R. cbn [Nat.eqb].
            rewrite NE', V, N. change 3 with (S (S (S 0))) in Hw. cbn [gwalk] in Hw. rewrite Hw. reflexivity. }
        unfold dp_group_port. lia. }
    unfold dp_detour. lia.
  - left. destruct (to_group s (dp_G D t) (ks s mod cov) Hs ltac:(lia) (G_lt t) ltac:(auto) (mod_cov _)) as (s' & N & H1 & H2 & H3).
    eexists _, s'. split; [|split; [exact H1|split; [exact H2|split; [exact H3|]]]].
    2:{ change 4 with (S (S (S 1))). remember (S (S 1)) as f2. cbn [gwalk]. unfold dp_par at 1.
        rewrite R. cbn [Nat.eqb]. rewrite NE', V, N. subst f2. rewrite par_down by auto. reflexivity. }
    unfold dp_group_port. lia.
Qed.
(** the whole path of a packet under PAR *)
Lemma par_walk : forall s, s < L -> exists tr,
  gwalk next par 5 s (DpInitial, 0) = Some (tr, t, nid mod conc + a) /\
  Forall (fun c => ch_vc c < 2) tr /\
  ((map dp_rank tr = (if s =? t then [] else if dp_G D s =? dp_G D t then [0; 3] else [0; 1; 3]) /\
    Forall (fun c => dp_G D (ch_switch c) = dp_G D s \/ dp_G D (ch_switch c) = dp_G D t) tr) \/
   (map dp_rank tr = [0; 1; 2; 3] /\ 2 < g /\ dp_G D s <> dp_G D t /\
    exists u i d, map (fun c => dp_G D (ch_switch c)) tr = [dp_G D s; u; i; d] /\ u = dp_G D s /\ i <> dp_G D s /\ i <> dp_G D t /\ d = dp_G D t)).
Proof.
  intros s Hs. destruct (Nat.eqb_spec s t) as [->|NE].
  { exists []. cbn [gwalk]. unfold dp_par. rewrite Nat.eqb_refl. rewrite (proj2 (row_leaf _) Ht). cbn [Nat.eqb]. auto. }
  pose proof (proj2 (row_leaf s) Hs) as R. set (u := dp_uid D 1 (ks s mod a) (dp_G D s)).
  assert (Ru : dp_row D u = 1) by (apply up_row; [apply mod_a|apply G_lt]).
  assert (Gu : dp_G D u = dp_G D s) by (apply up_G; [apply mod_a|apply G_lt]).
  assert (Hu : u < dp_switches D) by (apply up_lt; [lia|apply mod_a|apply G_lt]).
  assert (F : forall f, gwalk next par (S f) s (DpInitial, 0) =
    match gwalk next par f u (DpInitial, 0) with Some (tr, e, p) => Some (Chan s (ks s mod a) 0 :: tr, e, p) | None => None end).
  { intros f. cbn [gwalk]. unfold dp_par at 1. rewrite R. destruct (Nat.eqb_spec t s); [congruence|]. cbn [Nat.eqb].
    rewrite far_up by (auto using mod_a). auto. }
  rewrite F. destruct (Nat.eqb_spec (dp_G D s) (dp_G D t)) as [E|E].
  - rewrite par_down by (auto; congruence). eexists. split; [reflexivity|]. split; [repeat constructor|]. left.
    split.
    + cbn [map]. rewrite rank_up, rank_down by auto using mod_a. auto.
    + repeat (apply Forall_cons; [cbn [ch_switch]; rewrite ?Gu; auto|]); apply Forall_nil.
  - destruct (par_first u 0 Hu Ru ltac:(congruence)) as [(p & s' & H1 & H2 & H3 & H4 & ->)|
       (G3 & _ & p & i & q & s' & H1 & H2 & H3 & H4 & H5 & H6 & H7 & H8 & H9 & ->)];
      (eexists; split; [reflexivity|]; split; [repeat constructor|]); [left|right].
    + split.
      * cbn [map]. rewrite rank_up, rank_glob, rank_down by auto using mod_a. auto.
      * repeat (apply Forall_cons; [cbn [ch_switch]; rewrite ?Gu; auto|]); apply Forall_nil.
    + split; [cbn [map]; rewrite rank_up, !rank_glob, rank_down by auto using mod_a; auto|].
      split; auto. split; auto. exists (dp_G D u), (dp_G D i), (dp_G D s'). cbn. rewrite Gu in *. auto.
Qed.
End Route.

(** ** no shorter way *)
Lemma ghops_leaf : forall k s x, s < L -> ghops (dp_conns D) (S k) s x ->
  exists u, u < dp_switches D /\ dp_row D u = 1 /\ dp_G D u = dp_G D s /\ ghops (dp_conns D) k u x.
Proof.
  intros k s x Hs H. inversion H as [|k' s0 c s' t0 Hc Hd' Hh]; subst.
  apply in_leaf in Hc; [|apply row_leaf; auto]. destruct Hc as (y & Hy & ->). cbn in Hd'. apply Nat2Z.inj in Hd'. subst s'.
  pose proof (G_lt s). exists (dp_uid D 1 y (dp_G D s)). rewrite up_row, up_G by auto. repeat split; auto.
  apply up_lt; auto.
Qed.
Lemma ghops_upper : forall k u x, u < dp_switches D -> dp_row D u = 1 -> ghops (dp_conns D) (S k) u x ->
  exists v, v < dp_switches D /\ ghops (dp_conns D) k v x /\
    ((dp_row D v = 0 /\ dp_G D v = dp_G D u) \/
     (dp_row D v = 1 /\ dp_G D v <> dp_G D u /\ exists p rel, nth_error (d_conn D (dp_A D u) (dp_G D u)) p = Some rel /\ v = rel + L)).
Proof.
  intros k u x Hu R H. inversion H as [|k' s0 c s' t0 Hc Hd' Hh]; subst.
  pose proof (G_lt u) as HG. pose proof (A_lt u) as HA.
  apply in_upper in Hc; [|lia]. destruct Hc as [(y & Hy & ->)|(p & rel & Hn & ->)]; cbn in Hd'; apply Nat2Z.inj in Hd'; subst s'.
  - exists (dp_uid D 0 y (dp_G D u)). split; [apply up_lt; auto|]. split; auto. left. rewrite up_row, up_G by auto. auto.
  - assert (Hp : p < d_h D). { rewrite <- (w_len W _ _ HA HG). apply nth_error_Some. congruence. }
    pose proof (far_glob u p rel ltac:(lia) Hn (w_range W _ _ _ HA HG (nth_error_In _ _ Hn))) as FG.
    destruct (port_group u p Hu ltac:(lia) Hp) as (v & N & H1 & H2 & H3). assert (v = rel + L) by congruence. subst v.
    exists (rel + L). split; auto. split; auto. right. split; auto. split; [|eauto].
    rewrite H3. destruct (Nat.leb_spec (dp_G D u) (p / cov)); lia.
Qed.
Lemma ghops_0 : forall s x, ghops (dp_conns D) 0 s x -> s = x.
Proof. intros. inversion H; auto. Qed.
Lemma no_shorter : forall k s x, s < L -> x < L -> ghops (dp_conns D) k s x -> dp_hops s x <= k.
Proof.
  intros k s x Hs Hx H. unfold dp_hops. destruct (Nat.eqb_spec s x); [lia|].
  pose proof (proj2 (row_leaf x) Hx) as Rx.
  destruct k; [apply ghops_0 in H; contradiction|].
  destruct (ghops_leaf _ _ _ Hs H) as (u & U1 & U2 & U3 & U4).
  destruct k; [apply ghops_0 in U4; subst; congruence|].
  destruct (Nat.eqb_spec (dp_G D s) (dp_G D x)); [lia|].
  destruct k; [|lia]. exfalso.
  destruct (ghops_upper _ _ _ U1 U2 U4) as (v & V1 & V2 & V3). apply ghops_0 in V2. subst v.
  destruct V3 as [[_ E]|[E _]]; congruence.
Qed.
End Dp.

(** ** the all-to-all wiring *)
Lemma ata_no_self : forall a g h, 0 < a -> alltoall_ok a g h = true -> no_self (alltoall a g h).
Proof.
  intros a g h Ha OK A G i dst HA HG Hn. cbn [d_a d_g alltoall] in *.
  destruct (ata_in_form a g h Ha A G dst HG (nth_error_In _ _ Hn)) as (G' & B & H1 & H2 & H3 & ->).
  unfold df_G. cbn [d_a alltoall]. rewrite Nat.div_add_l by lia. rewrite Nat.div_small by auto. lia.
Qed.
Lemma circ_no_self : forall a g h, 0 < a -> no_self (circulant a g h).
Proof.
  intros a g h Ha A G i dst HA HG Hn. cbn [d_a d_g circulant d_conn] in *. unfold df_G. cbn [d_a circulant].
  apply nth_error_In in Hn. unfold circ_conn in Hn. apply in_flat_map in Hn. destruct Hn as (j & _ & Hin).
  apply in_app_iff in Hin. destruct Hin as [Hin|Hin];
    match type of Hin with context [?x =? G] => destruct (Nat.eqb_spec x G) as [E|E] end; try contradiction;
    destruct Hin as [<-|[]]; rewrite Nat.div_add_l, (Nat.div_small A) by lia; lia.
Qed.
Lemma ata_wired : forall a g h, 0 < a -> alltoall_ok a g h = true -> wired (alltoall a g h).
Proof.
  intros a g h Ha OK. destruct (ata_facts a g h OK Ha) as (F1 & F2 & F3 & F4 & F5).
  assert (NE : forall A G p, G < g -> p < h -> exists B, B < a /\ nth_error (ata_conn a g h A G) p =
      Some ((if p / covering g h <? G then p / covering g h else S (p / covering g h)) * a + B)).
  { intros A G p HG Hp. pose proof (Nat.div_mod p (covering g h) ltac:(lia)) as E.
    pose proof (Nat.mod_upper_bound p (covering g h) ltac:(lia)) as B.
    eexists. split; [apply Nat.mod_upper_bound; lia|].
    rewrite E at 1. rewrite Nat.mul_comm, (ata_nth a g h Ha A G _ _ HG B).
    destruct (Nat.ltb_spec (p / covering g h) (g - 1)); [reflexivity|].
    exfalso. nia. }
  constructor; cbn [d_a d_g d_h d_conn alltoall].
  - auto.
  - intros my Hmy. unfold dp_check, dp_cov. cbn [d_a d_g d_h d_conn alltoall]. fold (covering g h).
    assert (Eh : h mod (g - 1) = 0). { rewrite <- F3. apply Nat.mod_mul. lia. }
    rewrite Eh. cbn [Nat.eqb]. rewrite andb_true_r.
    assert (C : (covering g h =? 0) = false) by (apply Nat.eqb_neq; lia). rewrite C. cbn [negb andb].
    apply forallb_forall. intros [p dst] Hin. apply in_indexed in Hin. apply Nat.eqb_eq.
    assert (HG : dp_G (alltoall a g h) my < g) by (apply (G_lt (alltoall a g h)); cbn; lia).
    assert (Hp : p < h).
    { destruct (le_lt_dec h p); auto. exfalso. pose proof (ata_len a g h OK Ha (dp_A (alltoall a g h) my) _ HG) as LL.
      assert (p < length (ata_conn a g h (dp_A (alltoall a g h) my) (dp_G (alltoall a g h) my))) by (apply nth_error_Some; congruence). lia. }
    destruct (NE (dp_A (alltoall a g h) my) _ p HG Hp) as (B & HB & N). rewrite N in Hin. injection Hin as <-.
    assert (Q : p / covering g h < g - 1) by (apply Nat.div_lt_upper_bound; lia).
    set (q := p / covering g h) in *. set (G := dp_G (alltoall a g h) my) in *.
    unfold dp_G, dp_leaves. cbn [d_a d_g alltoall].
    destruct (Nat.ltb_spec q G); destruct (Nat.leb_spec G q); try lia.
    + rewrite Nat.mod_small by nia. rewrite Nat.div_add_l, (Nat.div_small B) by lia. lia.
    + rewrite Nat.mod_small by nia. rewrite Nat.div_add_l, (Nat.div_small B) by lia. lia.
  - intros A G HA HG. apply Nat.le_antisymm; [apply ata_len; auto|].
    destruct (le_lt_dec h (length (ata_conn a g h A G))); auto. exfalso.
    destruct h as [|h']; [lia|]. destruct (NE A G h' HG ltac:(lia)) as (B & _ & N).
    assert (h' < length (ata_conn a g (S h') A G)) by (apply nth_error_Some; congruence). lia.
  - intros A G x HA HG Hin. destruct (ata_in_form a g h Ha A G x HG Hin) as (G' & B & H1 & H2 & H3 & ->).
    unfold dp_leaves. cbn. nia.
Qed.
