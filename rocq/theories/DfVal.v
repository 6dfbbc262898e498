From Coq Require Import List ZArith Arith Bool Lia Relations.
From Verif Require Import TorusModel NetModel DfModel TorusSpec NetSpec TorusRoute NetProof FtProof DfProof HcPar.
Import ListNotations.

(** What the random draws of the Valiant and UGAL routers can return: another router of the group
    than this one and the destination, another group than this one and the destination's. *)
Definition dec_ok (D : df) (t : nat) (dec : nat -> dhdr -> vdec) : Prop :=
  forall my h,
    (v_newa (dec my h) < d_a D /\ v_newa (dec my h) <> df_A D my /\ v_newa (dec my h) <> df_A D t) /\
    (v_newg (dec my h) < d_g D /\ v_newg (dec my h) <> df_G D my /\ v_newg (dec my h) <> df_G D t).

Lemma gwalk_fwd : forall H nx (rt : nat -> H -> outcome H) f s h p vc h' s' tr e q,
  rt s h = Forward p vc h' -> nx s p = Some s' -> gwalk nx rt f s' h' = Some (tr, e, q) ->
  gwalk nx rt (S f) s h = Some (Chan s p vc :: tr, e, q).
Proof. intros. cbn [gwalk]. rewrite H0, H1, H2. auto. Qed.

Section V.
Variable D : df.
Hypothesis So : sound D.
Let Ha : 0 < d_a D := so_a D So.
Let a := d_a D.
Let N := df_switches D.
Let next := far_end (df_conns D) N.

Lemma dfm_direct : forall s u, direct_ports D (df_A D s) (df_G D s) (df_G D u) <> [] -> dfm D s u <= 2.
Proof.
  intros. unfold dfm. destruct (s =? u); [lia|]. destruct (_ =? _); [lia|].
  destruct (direct_ports D (df_A D s) (df_G D s) (df_G D u)); [congruence|lia].
Qed.
Lemma direct_conn : forall A G G' p, In p (direct_ports D A G G') -> exists x, In x (d_conn D A G) /\ df_G D x = G'.
Proof.
  intros. unfold direct_ports in H. apply in_map_iff in H. destruct H as ([h d] & _ & Hf).
  apply filter_In in Hf. destruct Hf as [Hi Hg]. apply in_indexed in Hi. apply Nat.eqb_eq in Hg.
  exists d. split; auto. eapply nth_error_In; eauto.
Qed.
Lemma conn_direct : forall A G G' x, In x (d_conn D A G) -> df_G D x = G' -> direct_ports D A G G' <> [].
Proof.
  intros A G G' x Hin E C. unfold direct_ports in C. apply map_eq_nil in C.
  apply In_nth_error in Hin. destruct Hin as [i Hi].
  assert (In (i, x) (filter (fun '(_, dst) => df_G D dst =? G') (indexed (d_conn D A G)))).
  { apply filter_In. split; [apply in_indexed; auto|]. apply Nat.eqb_eq; auto. }
  rewrite C in H. contradiction.
Qed.
(** from every group to every other there is a router with a cable *)
Lemma some_router : forall G G', G < d_g D -> G' < d_g D -> G <> G' ->
  exists A x, A < a /\ In x (d_conn D A G) /\ df_G D x = G'.
Proof.
  intros G G' HG HG' Hne.
  assert (E : exists A, A < a /\ direct_ports D A G G' <> []).
  { destruct (so_cover D So 0 G G' Ha HG HG' Hne) as [C|[C1 C2]]; [exists 0; auto|].
    destruct (d_to D G G') as [|[x c] l]; [congruence|]. exists x. apply (C2 x c). left; auto. }
  destruct E as (A & HA & Hd). destruct (direct_ports D A G G') as [|p l] eqn:Ed; [congruence|].
  destruct (direct_conn A G G' p) as (x & Hx & Hg); [rewrite Ed; left; auto|]. eauto.
Qed.

Lemma own_in : forall my i p d, In (p, d) (own_gateways D my i) ->
  p < a /\ p <> df_A D my /\ In d (d_conn D p (df_G D my)) /\ df_G D d = i.
Proof.
  intros. unfold own_gateways in H. apply in_flat_map in H. destruct H as (x & Hx & Hin).
  apply in_seq in Hx. destruct (Nat.eqb_spec x (df_A D my)); [contradiction|].
  apply in_map_iff in Hin. destruct Hin as (sid & E & Hf). injection E; intros; subst x sid.
  apply filter_In in Hf. destruct Hf as [H1 H2]. apply Nat.eqb_eq in H2. unfold a. repeat split; auto; lia.
Qed.
Lemma far_dest_in : forall my i inter d, far_dest D my i inter = Some d -> exists x, x < a /\ d = df_uid D x inter.
Proof.
  intros my i inter d H. unfold far_dest in H.
  assert (G : forall l acc d, (forall x, In x l -> x < a) -> (forall e, acc = Some e -> exists x, x < a /\ e = df_uid D x inter) ->
    fold_left (fun acc a => if existsb (fun sid => df_G D sid =? i) (d_conn D ((a + df_A D my) mod d_a D) inter)
      then Some (df_uid D a inter) else acc) l acc = Some d -> exists x, x < a /\ d = df_uid D x inter).
  { induction l; intros acc d' Hl Hacc E; cbn [fold_left] in E; [auto|].
    eapply IHl; [| |exact E]. { intros; apply Hl; right; auto. }
    intros e He. destruct (existsb _ _); [|auto]. injection He; intros; subst. exists a0. split; auto. apply Hl; left; auto. }
  eapply G; [| |exact H]; [|discriminate]. intros x Hx. apply in_seq in Hx. unfold a. lia.
Qed.
Lemma far_dest_some : forall my i inter, inter < d_g D -> i < d_g D -> inter <> i -> far_dest D my i inter <> None.
Proof.
  intros my i inter Hi Hg Hne. destruct (some_router inter i Hi Hg Hne) as (A & x & HA & Hx & Hgx).
  assert (Hex : exists b, b < a /\ (b + df_A D my) mod d_a D = A).
  { pose proof (A_lt D Ha my) as Hm. fold a in Hm |- *. destruct (le_lt_dec (df_A D my) A).
    - exists (A - df_A D my). split; [lia|]. replace (A - df_A D my + df_A D my) with A by lia. apply Nat.mod_small; auto.
    - exists (A + a - df_A D my). split; [lia|]. replace (A + a - df_A D my + df_A D my) with (A + 1 * a) by lia.
      rewrite Nat.mod_add by (fold a in Ha; lia). apply Nat.mod_small; auto. }
  destruct Hex as (b & Hb & Eb). unfold far_dest.
  assert (G : forall l acc, (acc <> None \/ In b l) ->
    fold_left (fun acc a => if existsb (fun sid => df_G D sid =? i) (d_conn D ((a + df_A D my) mod d_a D) inter)
      then Some (df_uid D a inter) else acc) l acc <> None).
  { induction l; intros acc [C|C]; cbn [fold_left]; auto; try contradiction.
    - apply IHl. left. destruct (existsb _ _); [discriminate|auto].
    - destruct C as [->|C]; [|apply IHl; auto]. apply IHl. left. rewrite Eb.
      assert (X : existsb (fun sid => df_G D sid =? i) (d_conn D A inter) = true).
      { apply existsb_exists. exists x. split; auto. apply Nat.eqb_eq; auto. }
      rewrite X. discriminate. }
  apply G. right. apply in_seq. unfold a in Hb. lia.
Qed.
Lemma far_spec : forall my i, my < N -> i < d_g D -> i <> df_G D my ->
  exists l, far_gateways D my i = Some l /\
    (forall p d, In (p, d) l -> exists inter, inter < d_g D /\ inter <> df_G D my /\ inter <> i /\
        In p (group_ports D my inter) /\ exists x, x < a /\ d = df_uid D x inter) /\
    (3 <= d_g D -> l <> []).
Proof.
  intros my i Hmy Hi Hne. unfold far_gateways.
  assert (G : forall l, (forall x, In x l -> x < d_g D) ->
    exists r, fold_right (fun inter acc =>
      if (inter =? df_G D my) || (inter =? i) then acc
      else match far_dest D my i inter, acc with
           | Some dest, Some l =>
               Some ((nth (df_A D my mod length (group_ports D my inter)) (group_ports D my inter) 0, dest) :: l)
           | _, _ => None
           end) (Some []) l = Some r /\
    (forall p d, In (p, d) r -> exists inter, inter < d_g D /\ inter <> df_G D my /\ inter <> i /\
        In p (group_ports D my inter) /\ exists x, x < a /\ d = df_uid D x inter) /\
    ((exists x, In x l /\ x <> df_G D my /\ x <> i) -> r <> [])).
  { induction l as [|k l IH]; intros Hl; cbn [fold_right].
    - exists []. split; auto. split; [contradiction|]. intros (x & [] & _).
    - destruct IH as (r & Er & Hr & Hn); [intros; apply Hl; right; auto|]. rewrite Er.
      assert (Hk : k < d_g D) by (apply Hl; left; auto).
      destruct (Nat.eqb_spec k (df_G D my)) as [E1|E1]; cbn [orb].
      { exists r. split; auto. split; auto. intros (x & [->|Hx] & H1 & H2); [congruence|]. apply Hn. eauto. }
      destruct (Nat.eqb_spec k i) as [E2|E2].
      { exists r. split; auto. split; auto. intros (x & [->|Hx] & H1 & H2); [congruence|]. apply Hn. eauto. }
      destruct (far_dest D my i k) as [dest|] eqn:Fd; [|exfalso; eapply far_dest_some; [| | |exact Fd]; eauto].
      eexists. split; [reflexivity|]. split; [|discriminate].
      intros p d [E|Hin]; [|auto]. injection E; intros; subst p d. exists k. repeat split; auto.
      + apply nth_mod_in. eapply group_ports_some; eauto.
      + eapply far_dest_in; eauto. }
  destruct (G (seq 0 (d_g D))) as (r & Er & Hr & Hn). { intros x Hx. apply in_seq in Hx. lia. }
  exists r. split; [exact Er|]. split; auto. intros H3. apply Hn.
  assert (Hx : exists x, x < 3 /\ x <> df_G D my /\ x <> i).
  { destruct (Nat.eq_dec (df_G D my) 0), (Nat.eq_dec i 0), (Nat.eq_dec (df_G D my) 1), (Nat.eq_dec i 1);
      try (exists 0; repeat split; lia); try (exists 1; repeat split; lia); exists 2; repeat split; lia. }
  destruct Hx as (x & Hx & H1 & H2). exists x. split; [apply in_seq; lia|auto].
Qed.

(** the first valiant hop *)
Lemma go_inter_step : forall my d n, my < N -> 3 <= d_g D ->
  v_newg d < d_g D -> v_newg d <> df_G D my ->
  exists p dest s', go_inter D my d n = v_send p SVal dest n /\ p < a + d_h D /\ next my p = Some s' /\ s' < N /\
    dest < N /\ dfm D s' dest <= 2.
Proof.
  intros my d n Hmy H3 Hg Hne. unfold go_inter, gateways.
  pose proof (G_lt D Ha my Hmy) as HG.
  destruct (own_gateways D my (v_newg d)) as [|g0 gl] eqn:Eo.
  - destruct (far_spec my (v_newg d) Hmy Hg Hne) as (l & -> & Hl & Hn). specialize (Hn H3).
    pose proof (nth_mod_in _ l (v_gate d) (0, 0) Hn) as Hin.
    destruct (nth (v_gate d mod length l) l (0, 0)) as [p dest] eqn:En.
    destruct (Hl p dest Hin) as (inter & H1 & H2 & _ & Hp & x & Hx & ->).
    exists p, (df_uid D x inter). assert (Hd : df_uid D x inter < N) by (apply uid_lt; auto).
    assert (Gd : df_G D (df_uid D x inter) = inter) by (apply uid_G; auto).
    destruct (group_port_step D Ha So my p inter Hmy H1 H2 Hp) as [(P1 & _ & s' & Nx & Hs & Gs)|(P1 & _ & Nx & Hs & Dd)].
    + exists s'. split; auto. split; [fold a in P1; lia|]. split; auto. split; auto. split; auto.
      pose proof (dfm_same D Ha s' (df_uid D x inter)). rewrite Gd in H. specialize (H Gs). lia.
    + exists (df_uid D p (df_G D my)). split; auto. split; [fold a in P1; lia|]. split; auto. split; auto. split; auto.
      apply dfm_direct. rewrite uid_A, uid_G, Gd by auto. auto.
  - set (l := g0 :: gl) in *.
    pose proof (nth_mod_in _ l (v_gate d) (0, 0) ltac:(discriminate)) as Hin.
    destruct (nth (v_gate d mod length l) l (0, 0)) as [p dest] eqn:En.
    rewrite <- Eo in Hin. destruct (own_in _ _ _ _ Hin) as (Hp & Hpn & Hc & Hg').
    exists p, dest, (df_uid D p (df_G D my)). split; auto. split; [lia|].
    split; [apply next_local; auto|]. split; [apply uid_lt; auto|].
    split; [exact (so_range D So _ _ _ Hp HG Hc)|].
    apply dfm_direct. rewrite uid_A, uid_G by auto. rewrite Hg'. eapply conn_direct; eauto.
Qed.
Lemma go_intra_step : forall my d n, my < N -> v_newa d < a -> v_newa d <> df_A D my ->
  exists dest, go_intra D my d n = v_send (v_newa d) SVal dest n /\ next my (v_newa d) = Some dest /\ dest < N /\
    df_G D dest = df_G D my.
Proof.
  intros my d n Hmy H1 H2. exists (df_uid D (v_newa d) (df_G D my)). split; auto.
  split; [apply next_local; auto|]. split; [apply uid_lt; auto; apply G_lt; auto|]. apply uid_G; auto.
Qed.

Section R.
Variables (conc nid : nat) (dec : nat -> dhdr -> vdec).
Let t := nid / conc.
Hypothesis Ht : t < N.
Hypothesis Hdec : dec_ok D t dec.
Hypothesis H3 : 3 <= d_g D.
Let ej := a + d_h D + nid mod conc.

(** an upper bound on the hops left once the first decision is taken *)
Definition pot (s : nat) (h : dhdr) : nat :=
  match s_stage h with SVal => dfm D s (s_dest h) + dfm D (s_dest h) t | _ => dfm D s t end.
Definition hok (h : dhdr) : Prop := s_stage h = SVal -> s_dest h < N.

Lemma toward_step : forall s d u st dest n, s < N -> u < N -> s <> u ->
  exists p s', v_toward D s d u st dest n = v_send p st dest n /\ next s p = Some s' /\ s' < N /\ dfm D s' u < dfm D s u.
Proof.
  intros. destruct (to_switch_step D Ha So s u (v_k d)) as (Hp & s' & Nx & Hs & Hd & _); auto.
  exists (to_switch D s (v_k d) u), s'. split; auto. unfold v_toward.
  destruct (Nat.leb_spec (d_a D + d_h D) (to_switch D s (v_k d) u)); [lia|]. rewrite andb_false_r. auto.
Qed.
Lemma continue_step : forall s h, s < N -> s <> t -> hok h -> s_stage h <> SInit ->
  exists p s' st dest, v_continue D s t (dec s h) h = v_send p st dest (s_hops h) /\ next s p = Some s' /\ s' < N /\
    st <> SInit /\ (forall k, hok (DHdr st dest k)) /\ forall k, pot s' (DHdr st dest k) < pot s h.
Proof.
  intros s h Hs Hne Hh Hst. unfold v_continue, pot. destruct (s_stage h) eqn:Es; [congruence| | |].
  - specialize (Hh Es). destruct (Nat.eqb_spec s (s_dest h)) as [E|E].
    + destruct (toward_step s (dec s h) t SFinal t (s_hops h) Hs Ht Hne) as (p & s' & Hv & Nx & Hs' & Hd).
      exists p, s', SFinal, t. repeat split; auto; try discriminate. intros. cbn [s_stage s_dest].
      rewrite <- E, dfm_refl. lia.
    + destruct (toward_step s (dec s h) (s_dest h) SVal (s_dest h) (s_hops h) Hs Hh E) as (p & s' & Hv & Nx & Hs' & Hd).
      exists p, s', SVal, (s_dest h). repeat split; auto; try discriminate. { intros ? ?. auto. }
      intros. cbn [s_stage s_dest]. lia.
  - destruct (toward_step s (dec s h) t SFinal t (s_hops h) Hs Ht Hne) as (p & s' & Hv & Nx & Hs' & Hd).
    exists p, s', SFinal, t. repeat split; auto; try discriminate.
  - destruct (toward_step s (dec s h) t SMin (s_dest h) (s_hops h) Hs Ht Hne) as (p & s' & Hv & Nx & Hs' & Hd).
    exists p, s', SMin, (s_dest h). repeat split; auto; try discriminate.
Qed.

(** any route function that ejects at t and behaves like v_continue after the first stage *)
Section Generic.
Variable route : nat -> dhdr -> outcome dhdr.
Variable lim : nat.
Hypothesis lim16 : lim <= 15.
Hypothesis r_eject : forall h, route t h = Eject ej.
Hypothesis r_cont : forall s h, s <> t -> s_stage h <> SInit -> s_hops h < lim -> route s h = v_continue D s t (dec s h) h.

Lemma walk_cont : forall k s h, s < N -> hok h -> s_stage h <> SInit -> pot s h <= k -> s_hops h + k <= lim ->
  exists tr, gwalk next route (S k) s h = Some (tr, t, ej) /\ length tr <= k /\ map ch_vc tr = seq (s_hops h) (length tr).
Proof.
  induction k; intros s h Hs Hh Hst Hp Hl; [cbn [gwalk]|remember (S k) as m; cbn [gwalk]];
    destruct (Nat.eq_dec s t) as [->|Hne]; try (exists []; rewrite r_eject; repeat split; simpl; auto; lia).
  - exfalso. unfold pot in Hp. destruct (s_stage h); try congruence; try (apply Hne, (dfm_zero D); lia).
    apply Hne. transitivity (s_dest h); apply (dfm_zero D); lia.
  - destruct (continue_step s h Hs Hne Hh Hst) as (p & s' & st & dest & Hc & Nx & Hs' & Hst' & Hh' & Hd).
    assert (Em : (s_hops h + 1) mod 16 = s_hops h + 1) by (apply Nat.mod_small; lia).
    destruct (IHk s' (DHdr st dest (s_hops h + 1))) as (tr & Hw & Hlen & Hv); auto.
    { specialize (Hd (s_hops h + 1)). lia. } { cbn [s_hops]. lia. }
    exists (Chan s p (s_hops h) :: tr). rewrite r_cont by (auto; lia). rewrite Hc. unfold v_send. rewrite Em, Nx.
    subst m. rewrite Hw. split; auto. split; [simpl; lia|]. cbn [map ch_vc length seq]. rewrite Hv.
    cbn [s_hops]. rewrite Nat.add_1_r. auto.
Qed.
(** a first step of the initial stage, then at most k hops *)
Lemma walk_first : forall k s n h p st dest s', s < N -> s <> t -> s_hops h = n -> route s h = v_send p st dest n ->
  next s p = Some s' -> s' < N -> st <> SInit -> (st = SVal -> dest < N) -> pot s' (DHdr st dest (n + 1)) <= k -> n + 1 + k <= lim ->
  exists tr, gwalk next route (S (S k)) s h = Some (tr, t, ej) /\ length tr <= S k /\ map ch_vc tr = seq n (length tr).
Proof.
  intros k s n h p st dest s' Hs Hne En R Nx Hs' Hst Hd Hp Hl.
  destruct (walk_cont k s' (DHdr st dest (n + 1)) Hs') as (tr & Hw & Hlen & Hv); auto.
  assert (Em : (n + 1) mod 16 = n + 1) by (apply Nat.mod_small; lia).
  exists (Chan s p n :: tr). remember (S k) as m. cbn [gwalk]. rewrite R. unfold v_send. rewrite Em, Nx. subst m. rewrite Hw.
  split; auto. split; [simpl; lia|]. cbn [map ch_vc length seq]. rewrite Hv. cbn [s_hops]. rewrite Nat.add_1_r. auto.
Qed.
End Generic.

Lemma minimal_step : forall s d st n, s < N -> s <> t ->
  exists p s', go_minimal D s t d st n = v_send p st t n /\ next s p = Some s' /\ s' < N /\ dfm D s' t < dfm D s t.
Proof.
  intros. destruct (to_switch_step D Ha So s t (v_k d)) as (Hp & s' & Nx & Hs & Hd & _); auto.
  exists (to_switch D s (v_k d) t), s'. auto.
Qed.
(** the bound for the valiant branch: inter-group 6, intra-group 2 *)
Lemma inter_first : forall s d n, s < N -> v_newg d < d_g D -> v_newg d <> df_G D s ->
  exists p dest s', go_inter D s d n = v_send p SVal dest n /\ next s p = Some s' /\ s' < N /\ dest < N /\
    pot s' (DHdr SVal dest (n + 1)) <= 5.
Proof.
  intros s d n Hs H1 H2. destruct (go_inter_step s d n Hs H3 H1 H2) as (p & dest & s' & E & _ & Nx & Hs' & Hd & Hm).
  exists p, dest, s'. repeat split; auto. unfold pot. cbn [s_stage s_dest]. pose proof (dfm_le D Ha dest t). lia.
Qed.
Lemma intra_first : forall s d n, s < N -> df_G D s = df_G D t -> v_newa d < a -> v_newa d <> df_A D s ->
  exists dest, go_intra D s d n = v_send (v_newa d) SVal dest n /\ next s (v_newa d) = Some dest /\ dest < N /\
    pot dest (DHdr SVal dest (n + 1)) <= 1.
Proof.
  intros s d n Hs Hg H1 H2. destruct (go_intra_step s d n Hs H1 H2) as (dest & E & Nx & Hd & Hg').
  exists dest. repeat split; auto. unfold pot. cbn [s_stage s_dest]. rewrite dfm_refl. apply dfm_same; auto; congruence.
Qed.

Definition h0 : dhdr := DHdr SInit 0 0.
Lemma val_delivers : forall s, s < N ->
  exists tr, gwalk next (val_route D conc dec nid) 7 s h0 = Some (tr, t, ej) /\ length tr <= 6 /\
    map ch_vc tr = seq 0 (length tr).
Proof.
  intros s Hs. assert (RE : forall h, val_route D conc dec nid t h = Eject ej).
  { intros. unfold val_route. fold t. rewrite Nat.eqb_refl. auto. }
  destruct (Nat.eq_dec s t) as [->|Hne].
  { exists []. cbn [gwalk]. rewrite RE. repeat split; simpl; auto; lia. }
  assert (RC : forall s h, s <> t -> s_stage h <> SInit -> s_hops h < 6 -> val_route D conc dec nid s h = v_continue D s t (dec s h) h).
  { intros. unfold val_route. fold t. destruct (Nat.eqb_spec t s0); [congruence|]. destruct (s_stage h); auto; congruence. }
  destruct (Hdec s h0) as ((A1 & A2 & A3) & G1 & G2 & G3).
  assert (R : val_route D conc dec nid s h0 = if df_G D t =? df_G D s then go_intra D s (dec s h0) 0 else go_inter D s (dec s h0) 0).
  { unfold val_route. fold t. destruct (Nat.eqb_spec t s); [congruence|]. auto. }
  destruct (Nat.eqb_spec (df_G D t) (df_G D s)) as [E|E].
  - destruct (intra_first s (dec s h0) 0 Hs ltac:(congruence) A1 A2) as (dest & E1 & Nx & Hd & Hp).
    destruct (walk_first (val_route D conc dec nid) 6 ltac:(lia) RE RC 5 s 0 h0 _ SVal dest dest Hs Hne eq_refl
       (eq_trans R E1) Nx Hd ltac:(discriminate) (fun _ => Hd) ltac:(lia) ltac:(lia)) as (tr & Hw & Hl & Hv). eauto.
  - destruct (inter_first s (dec s h0) 0 Hs G1 G2) as (p & dest & s' & E1 & Nx & Hs' & Hd & Hp).
    destruct (walk_first (val_route D conc dec nid) 6 ltac:(lia) RE RC 5 s 0 h0 _ SVal dest s' Hs Hne eq_refl
       (eq_trans R E1) Nx Hs' ltac:(discriminate) (fun _ => Hd) ltac:(lia) ltac:(lia)) as (tr & Hw & Hl & Hv). eauto.
Qed.
Lemma ugal_delivers : forall s, s < N ->
  exists tr, gwalk next (ugal_route D conc dec nid) 7 s h0 = Some (tr, t, ej) /\ length tr <= 6 /\
    map ch_vc tr = seq 0 (length tr).
Proof.
  intros s Hs. assert (RE : forall h, ugal_route D conc dec nid t h = Eject ej).
  { intros. unfold ugal_route. fold t. rewrite Nat.eqb_refl. auto. }
  destruct (Nat.eq_dec s t) as [->|Hne].
  { exists []. cbn [gwalk]. rewrite RE. repeat split; simpl; auto; lia. }
  assert (RC : forall s h, s <> t -> s_stage h <> SInit -> s_hops h < 6 -> ugal_route D conc dec nid s h = v_continue D s t (dec s h) h).
  { intros. unfold ugal_route. fold t. destruct (Nat.eqb_spec t s0); [congruence|].
    destruct (Nat.leb_spec 6 (s_hops h)); [lia|]. destruct (s_stage h); auto; congruence. }
  destruct (Hdec s h0) as ((A1 & A2 & A3) & G1 & G2 & G3).
  assert (R : ugal_route D conc dec nid s h0 = ugal_first D s t (dec s h0) SMin 0).
  { unfold ugal_route. fold t. destruct (Nat.eqb_spec t s); [congruence|]. auto. }
  unfold ugal_first in R. pose proof (dfm_le D Ha s t) as L3.
  destruct (minimal_step s (dec s h0) SMin 0 Hs Hne) as (p & s' & E1 & Nx & Hs' & Hp).
  assert (M : ugal_route D conc dec nid s h0 = go_minimal D s t (dec s h0) SMin 0 ->
     exists tr, gwalk next (ugal_route D conc dec nid) 7 s h0 = Some (tr, t, ej) /\ length tr <= 6 /\ map ch_vc tr = seq 0 (length tr)).
  { intros R'.
    destruct (walk_first (ugal_route D conc dec nid) 6 ltac:(lia) RE RC 5 s 0 h0 _ SMin t s' Hs Hne eq_refl
       (eq_trans R' E1) Nx Hs' ltac:(discriminate) ltac:(discriminate)) as (tr & Hw & Hl & Hv); eauto.
    unfold pot; cbn [s_stage]; lia. }
  destruct (Nat.eqb_spec (df_G D t) (df_G D s)) as [E|E].
  - destruct (v_go (dec s h0)); [|auto].
    destruct (intra_first s (dec s h0) 0 Hs ltac:(congruence) A1 A2) as (dest & E2 & Nx2 & Hd & Hp2).
    destruct (walk_first (ugal_route D conc dec nid) 6 ltac:(lia) RE RC 5 s 0 h0 _ SVal dest dest Hs Hne eq_refl
       (eq_trans R E2) Nx2 Hd ltac:(discriminate) (fun _ => Hd) ltac:(lia) ltac:(lia)) as (tr & Hw & Hl & Hv). eauto.
  - destruct ((2 <? d_g D) && v_go (dec s h0)); [|auto].
    destruct (inter_first s (dec s h0) 0 Hs G1 G2) as (p2 & dest & s2 & E2 & Nx2 & Hs2 & Hd & Hp2).
    destruct (walk_first (ugal_route D conc dec nid) 6 ltac:(lia) RE RC 5 s 0 h0 _ SVal dest s2 Hs Hne eq_refl
       (eq_trans R E2) Nx2 Hs2 ltac:(discriminate) (fun _ => Hd) ltac:(lia) ltac:(lia)) as (tr & Hw & Hl & Hv). eauto.
Qed.

(** PAR: the decision is taken again at every switch of the minimal path *)
Definition pbound (k : nat) : nat := match k with 0 => 0 | 1 => 2 | 2 => 6 | _ => 7 end.
Lemma dpar_walk : forall k s h, s < N -> s_stage h = SInit -> dfm D s t <= k -> k <= 3 -> s_hops h + k <= 3 ->
  exists tr, gwalk next (dpar_route D conc dec nid) 8 s h = Some (tr, t, ej) /\ length tr <= pbound k /\
    map ch_vc tr = seq (s_hops h) (length tr).
Proof.
  assert (RE : forall h, dpar_route D conc dec nid t h = Eject ej).
  { intros. unfold dpar_route. fold t. rewrite Nat.eqb_refl. auto. }
  assert (RC : forall s h, s <> t -> s_stage h <> SInit -> s_hops h < 15 -> dpar_route D conc dec nid s h = v_continue D s t (dec s h) h).
  { intros. unfold dpar_route. fold t. destruct (Nat.eqb_spec t s); [congruence|]. destruct (s_stage h); auto; congruence. }
  induction k; intros s h Hs Hst Hk Hk3 Hn.
  - assert (s = t) by (apply (dfm_zero D); lia). subst s. exists []. cbn [gwalk]. rewrite RE. repeat split; simpl; auto.
  - destruct (Nat.eq_dec s t) as [->|Hne].
    { exists []. cbn [gwalk]. rewrite RE. repeat split; simpl; auto; lia. }
    destruct (Hdec s h) as ((A1 & A2 & A3) & G1 & G2 & G3).
    assert (R : dpar_route D conc dec nid s h = ugal_first D s t (dec s h) SInit (s_hops h)).
    { unfold dpar_route. fold t. destruct (Nat.eqb_spec t s); [congruence|]. rewrite Hst. auto. }
    unfold ugal_first in R.
    destruct (minimal_step s (dec s h) SInit (s_hops h) Hs Hne) as (p & s' & E1 & Nx & Hs' & Hp).
    assert (M : dpar_route D conc dec nid s h = go_minimal D s t (dec s h) SInit (s_hops h) ->
       exists tr, gwalk next (dpar_route D conc dec nid) 8 s h = Some (tr, t, ej) /\ length tr <= pbound (S k) /\ map ch_vc tr = seq (s_hops h) (length tr)).
    { intros R'. assert (Em : (s_hops h + 1) mod 16 = s_hops h + 1) by (apply Nat.mod_small; lia).
      destruct (IHk s' (DHdr SInit t (s_hops h + 1)) Hs' eq_refl ltac:(lia) ltac:(lia) ltac:(cbn [s_hops]; lia)) as (tr & Hw & Hl & Hv).
      assert (Hw' : gwalk next (dpar_route D conc dec nid) 7 s' (DHdr SInit t (s_hops h + 1)) = Some (tr, t, ej)).
      { apply gwalk_len in Hw. apply (gwalk_more _ _ _ _ 7) in Hw; auto. assert (pbound k <= 6) by (destruct k as [|[|[|k]]]; simpl; lia). lia. }
      exists (Chan s p (s_hops h) :: tr). 
      rewrite E1 in R'. unfold v_send in R'. rewrite Em in R'.
      split; [exact (gwalk_fwd _ _ _ _ _ _ _ _ _ _ _ _ _ R' Nx Hw')|]. split.
      - simpl length. assert (S (pbound k) <= pbound (S k)) by (destruct k as [|[|[|k]]]; simpl; lia). lia.
      - cbn [map ch_vc length seq]. rewrite Hv. cbn [s_hops]. rewrite Nat.add_1_r. auto. }
    destruct (Nat.eqb_spec (df_G D t) (df_G D s)) as [E|E].
    + destruct (v_go (dec s h)); [|auto].
      destruct (intra_first s (dec s h) (s_hops h) Hs ltac:(congruence) A1 A2) as (dest & E2 & Nx2 & Hd & Hp2).
      destruct (walk_first (dpar_route D conc dec nid) 15 ltac:(lia) RE RC 1 s (s_hops h) h _ SVal dest dest Hs Hne eq_refl
         (eq_trans R E2) Nx2 Hd ltac:(discriminate) (fun _ => Hd) ltac:(lia) ltac:(lia)) as (tr & Hw & Hl & Hv).
      exists tr. split; [eapply gwalk_more; [exact Hw|lia]|]. split; auto. destruct k as [|[|[|k]]]; simpl; lia.
    + destruct ((2 <? d_g D) && v_go (dec s h)); [|auto].
      destruct (inter_first s (dec s h) (s_hops h) Hs G1 G2) as (p2 & dest & s2 & E2 & Nx2 & Hs2 & Hd & Hp2).
      destruct (walk_first (dpar_route D conc dec nid) 15 ltac:(lia) RE RC 5 s (s_hops h) h _ SVal dest s2 Hs Hne eq_refl
         (eq_trans R E2) Nx2 Hs2 ltac:(discriminate) (fun _ => Hd) ltac:(lia) ltac:(lia)) as (tr & Hw & Hl & Hv).
      exists tr. split; [eapply gwalk_more; [exact Hw|lia]|]. split; auto.
      assert (2 <= S k).
      { assert (2 <= dfm D s t); [|lia]. unfold dfm. destruct (Nat.eqb_spec s t); [congruence|].
        destruct (Nat.eqb_spec (df_G D s) (df_G D t)); [congruence|]. destruct (direct_ports _ _ _ _); lia. }
      destruct k as [|[|[|k]]]; simpl; lia.
Qed.
End R.

(** rotate: any global cable first, then the minimal path *)
Section Rot.
Variables (conc nid : nat) (ks : nat -> nat).
Let t := nid / conc.
Hypothesis Ht : t < N.
Let ej := a + d_h D + nid mod conc.
Hypothesis Hg : forall s, s < N -> rotate_ports D s <> [].
Let route := rotate_route D conc ks nid.

Lemma rotate_port_step : forall s p, s < N -> In p (rotate_ports D s) -> exists s', next s p = Some s' /\ s' < N.
Proof.
  intros s p Hs Hin. unfold rotate_ports in Hin. apply in_map_iff in Hin. destruct Hin as ([h d] & <- & Hf).
  apply filter_In in Hf. destruct Hf as [Hi Hn]. assert (Hi' := Hi). apply in_indexed in Hi'.
  apply negb_true_iff, Nat.eqb_neq in Hn.
  assert (Hp : In (h + d_a D) (direct_ports D (df_A D s) (df_G D s) (df_G D d))).
  { unfold direct_ports. apply in_map_iff. exists (h, d). split; auto. apply filter_In. split; auto. apply Nat.eqb_refl. }
  destruct (next_global D Ha So s _ _ Hs Hn Hp) as (_ & s' & Nx & Hs' & _). eauto.
Qed.
Lemma rotate_min : forall k s ng n, s < N -> 1 <= ng -> dfm D s t <= k -> n + k <= 4 ->
  (df_G D s <> df_G D t -> ng <= 2) -> ng <= 3 ->
  exists tr, gwalk next route (S k) s (ng, n) = Some (tr, t, ej) /\ length tr <= k /\ map ch_vc tr = seq n (length tr).
Proof.
  induction k; intros s ng n Hs Hng Hk Hn Hc Hng3; [cbn [gwalk]|remember (S k) as m; cbn [gwalk]]; unfold route at 1, rotate_route; fold t.
  - assert (s = t) by (apply (dfm_zero D); lia). subst s. rewrite Nat.eqb_refl. exists []. repeat split; simpl; auto.
  - destruct (Nat.eqb_spec t s) as [E|E].
    { exists []. subst s. repeat split; simpl; auto; lia. }
    destruct (to_switch_step D Ha So s t (ks s) Hs Ht ltac:(congruence)) as (Hp & s' & Nx & Hs' & Hd & C).
    change (next s (to_switch D s (ks s) t) = Some s') in Nx.
    destruct (Nat.ltb_spec 3 n); [lia|]. destruct (Nat.leb_spec 1 ng); [|lia].
    assert (Em : (n + 1) mod 16 = n + 1) by (apply Nat.mod_small; lia). rewrite Em.
    assert (W : forall ng', 1 <= ng' -> (df_G D s' <> df_G D t -> ng' <= 2) -> ng' <= 3 ->
      exists tr, gwalk next route m s' (ng', n + 1) = Some (tr, t, ej) /\ length tr <= k /\ map ch_vc tr = seq (n + 1) (length tr)).
    { intros. subst m. apply IHk; auto; lia. }
    assert (Fin : forall ng', 1 <= ng' -> (df_G D s' <> df_G D t -> ng' <= 2) -> ng' <= 3 -> exists tr,
       match next s (to_switch D s (ks s) t) with
       | Some s' => match gwalk next route m s' (ng', n + 1) with
                    | Some (tr, e, p') => Some (Chan s (to_switch D s (ks s) t) n :: tr, e, p') | None => None end
       | None => None end = Some (tr, t, ej) /\ length tr <= m /\ map ch_vc tr = seq n (length tr)).
    { intros ng' X1 X2 X3. destruct (W ng' X1 X2 X3) as (tr & Hw & Hl & Hv). exists (Chan s (to_switch D s (ks s) t) n :: tr).
      rewrite Nx, Hw. split; auto. split; [simpl; lia|]. cbn [map ch_vc length seq]. rewrite Hv, Nat.add_1_r. auto. }
    destruct (Nat.eqb_spec (df_G D t) (df_G D s)) as [Eg|Eg].
    + apply Fin; auto. intros X. destruct C as [(_ & _ & ->)|[(C1 & _)|(C1 & _)]]; congruence.
    + destruct (Nat.leb_spec (d_a D + d_h D) (to_switch D s (ks s) t)); [lia|].
      specialize (Hc ltac:(congruence)).
      destruct (Nat.leb_spec (d_a D) (to_switch D s (ks s) t)).
      * assert (E4 : (ng + 1) mod 4 = ng + 1) by (apply Nat.mod_small; lia). rewrite E4. apply Fin; lia.
      * apply Fin; auto.
Qed.
Lemma rotate_delivers : forall s, s < N ->
  exists tr, gwalk next route 5 s (0, 0) = Some (tr, t, ej) /\ length tr <= 4 /\ map ch_vc tr = seq 0 (length tr).
Proof.
  intros s Hs. remember 4 as m. cbn [gwalk]. unfold route at 1, rotate_route. fold t.
  destruct (Nat.eqb_spec t s) as [E|E].
  { exists []. subst s. repeat split; simpl; auto; lia. }
  change (3 <? 0) with false. change (1 <=? 0) with false. cbv iota.
  change ((0 + 1) mod 16) with 1. change ((0 + 1) mod 4) with 1.
  destruct (Nat.eqb_spec (df_G D t) (df_G D s)) as [Eg|Eg].
  - assert (HA : df_A D t <> df_A D s). { intro. apply E. rewrite <- (uid_self D Ha s), <- (uid_self D Ha t). congruence. }
    fold (next s (df_A D t)). assert (Nx : next s (df_A D t) = Some t).
    { unfold next. rewrite next_local; auto. rewrite <- Eg, uid_self; auto. apply A_lt; auto. }
    rewrite Nx. exists [Chan s (df_A D t) 0]. subst m. cbn [gwalk]. unfold route at 1, rotate_route. fold t.
    rewrite Nat.eqb_refl. repeat split; simpl; auto; lia.
  - cbv zeta. pose proof (nth_mod_in _ (rotate_ports D s) (ks s) 0 (Hg s Hs)) as Hin.
    set (p := nth (ks s mod length (rotate_ports D s)) (rotate_ports D s) 0) in *.
    destruct (rotate_port_step s p Hs Hin) as (s' & Nx & Hs'). rewrite Nx.
    destruct (rotate_min 3 s' 1 1 Hs') as (tr & Hw & Hl & Hv); auto; try lia.
    { apply dfm_le; auto. }
    subst m. rewrite Hw. exists (Chan s p 0 :: tr). split; auto. split; [simpl; lia|].
    cbn [map ch_vc length seq]. rewrite Hv. auto.
Qed.
End Rot.
End V.
