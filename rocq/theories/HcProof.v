From Coq Require Import List ZArith Arith Bool Lia Relations.
From Verif Require Import TorusModel NetModel HcModel TorusSpec NetSpec TorusProof TorusRoute NetProof.
Import ListNotations.

Definition hcx (dims : list nat) (s i v : nat) : conn :=
  Conn s (Z.of_nat (setc dims i v s)) (hc_port dims i v) (hc_port dims i (coord dims i s)).

Lemma coord_mid : forall pre a dims u, pos_dims (pre ++ a :: dims) ->
  coord (pre ++ a :: dims) (length pre) u = (u / prod pre) mod a.
Proof.
  induction pre; intros.
  - simpl app. simpl length. rewrite coord_0. cbn [prod]. rewrite Nat.div_1_r. auto.
  - simpl app in *. inversion H; subst. simpl length. rewrite coord_S, IHpre by auto.
    simpl. rewrite Nat.div_div; auto. lia.
    assert (0 < prod pre) by (apply prod_pos; unfold pos_dims in *; rewrite Forall_app in H3; tauto). lia.
Qed.
Lemma jump_mid : forall pre a dims u x, pos_dims (pre ++ a :: dims) ->
  (Z.of_nat (setc (pre ++ a :: dims) (length pre) x u) =
   Z.of_nat u + (Z.of_nat x - Z.of_nat ((u / prod pre) mod a)) * Z.of_nat (prod pre))%Z.
Proof.
  intros. assert (Hnth : nth_error (pre ++ a :: dims) (length pre) = Some a).
  { rewrite nth_error_app2 by lia. rewrite Nat.sub_diag. auto. }
  pose proof (jump_val _ 0 1 u (length pre) a x Hnth H ltac:(lia) _ eq_refl) as J.
  rewrite firstn_app, Nat.sub_diag, firstn_all, app_nil_r, coord_mid in J by auto.
  rewrite !Nat.mul_1_l, !Nat.add_0_l in J. exact J.
Qed.
Lemma prod_snoc : forall pre a, prod (pre ++ [a]) = prod pre * a.
Proof. induction pre; simpl; intros; [lia|]. rewrite IHpre. lia. Qed.

Lemma in_hc_loop : forall dims pre s c, pos_dims (pre ++ dims) ->
  (In c (hc_outports_loop (pre ++ dims) (length pre) (prod pre) dims s) <->
   exists i v, length pre <= i < length (pre ++ dims) /\ v < nth i (pre ++ dims) 0 /\
     v <> coord (pre ++ dims) i s /\ c = hcx (pre ++ dims) s i v).
Proof.
  induction dims; intros.
  - simpl. rewrite app_nil_r. split; [contradiction|]. intros (i & v & Hi & _). lia.
  - cbn [hc_outports_loop]. rewrite in_app_iff.
    assert (Hpre : pre ++ a :: dims = (pre ++ [a]) ++ dims) by (rewrite <- app_assoc; auto).
    assert (IH := IHdims (pre ++ [a]) s c ltac:(rewrite <- Hpre; auto)). rewrite <- Hpre in IH.
    rewrite app_length in IH. simpl length in IH at 1. rewrite Nat.add_1_r in IH.
    rewrite prod_snoc in IH. rewrite IH. clear IH.
    assert (Hn : nth (length pre) (pre ++ a :: dims) 0 = a)
      by (rewrite app_nth2, Nat.sub_diag by lia; auto).
    split.
    + intros [Hc|(i & v & Hi & Hv & Hx & ->)].
      * apply in_flat_map in Hc. destruct Hc as (v & Hv & Hc). apply in_seq in Hv.
        destruct (Nat.eqb_spec v ((s / prod pre) mod a)); [contradiction|].
        destruct Hc as [<-|[]]. exists (length pre), v. rewrite Hn.
        rewrite coord_mid by auto. repeat split; auto; try lia. rewrite app_length. simpl; lia.
        unfold hcx. rewrite jump_mid, coord_mid by auto. auto.
      * exists i, v. rewrite app_length in Hi. simpl in Hi. repeat split; auto; rewrite ?app_length in *; simpl in *; lia.
    + intros (i & v & Hi & Hv & Hx & ->).
      destruct (Nat.eq_dec i (length pre)).
      * left. subst i. rewrite Hn in Hv. rewrite coord_mid in Hx by auto.
        apply in_flat_map. exists v. split; [apply in_seq; lia|].
        destruct (Nat.eqb_spec v ((s / prod pre) mod a)); [contradiction|].
        left. unfold hcx. rewrite jump_mid, coord_mid by auto. auto.
      * right. exists i, v. repeat split; auto; rewrite ?app_length in *; simpl in *; lia.
Qed.
Lemma in_hc : forall dims s c, pos_dims dims ->
  (In c (hc_outports dims s) <-> exists i v, i < length dims /\ v < nth i dims 0 /\
     v <> coord dims i s /\ c = hcx dims s i v).
Proof.
  intros. unfold hc_outports. rewrite (in_hc_loop dims [] s c H). simpl.
  split; intros (i & v & Hi & R); exists i, v; split; auto; lia.
Qed.

Lemma sum_firstn_S : forall dims i, i < length dims ->
  list_sum (firstn (S i) dims) = list_sum (firstn i dims) + nth i dims 0.
Proof.
  induction dims; intros; simpl in *; [lia|]. destruct i; simpl; [lia|].
  change (fold_right Nat.add 0 (firstn (S i) dims)) with (list_sum (firstn (S i) dims)).
  change (fold_right Nat.add 0 (firstn i dims)) with (list_sum (firstn i dims)).
  pose proof (IHdims i ltac:(lia)) as E. simpl in *. lia.
Qed.
Lemma sum_firstn_mono : forall dims i j, i <= j -> list_sum (firstn i dims) <= list_sum (firstn j dims).
Proof.
  induction dims; intros. rewrite !firstn_nil; auto. destruct i; simpl; [lia|].
  destruct j; [lia|]. simpl. change (list_sum (firstn i dims)) with (fold_right Nat.add 0 (firstn i dims)) in *.
  pose proof (IHdims i j ltac:(lia)). unfold list_sum in *. lia.
Qed.
Lemma hc_port_inj : forall dims i v j w, i < length dims -> j < length dims ->
  v < nth i dims 0 -> w < nth j dims 0 -> hc_port dims i v = hc_port dims j w -> i = j /\ v = w.
Proof.
  unfold hc_port, dim_to_outport. intros.
  destruct (Nat.lt_trichotomy i j) as [C|[C|C]].
  - pose proof (sum_firstn_mono dims (S i) j C). rewrite sum_firstn_S in H4 by auto. lia.
  - subst. lia.
  - pose proof (sum_firstn_mono dims (S j) i C). rewrite sum_firstn_S in H4 by auto. lia.
Qed.

Lemma hc_paired : forall dims, pos_dims dims -> cables_paired (hc_outports dims) (prod dims).
Proof.
  intros dims P s c Hs Hc. apply in_hc in Hc; auto. destruct Hc as (i & v & Hi & Hv & Hx & ->).
  pose proof (coord_lt' dims i s P Hi) as Hlt.
  exists (setc dims i v s), (hcx dims (setc dims i v s) i (coord dims i s)).
  assert (Hco : coord dims i (setc dims i v s) = v).
  { rewrite setc_coord with (d := nth i dims 0); auto using nth_dim. rewrite Nat.eqb_refl; auto. }
  repeat split.
  - apply setc_lt with (d := nth i dims 0); auto using nth_dim.
  - apply in_hc; auto. exists i, (coord dims i s). rewrite Hco. auto.
  - cbn [c_dst hcx]. f_equal. rewrite setc_setc with (d := nth i dims 0); auto using nth_dim.
    apply setc_self with (d := nth i dims 0); auto using nth_dim.
  - cbn [c_inport hcx]. rewrite Hco. auto.
Qed.
Lemma hc_outport_unique : forall dims s c c', pos_dims dims ->
  In c (hc_outports dims s) -> In c' (hc_outports dims s) -> c_outport c = c_outport c' -> c = c'.
Proof.
  intros dims s c c' P H H0 E. apply in_hc in H, H0; auto.
  destruct H as (i & v & Hi & Hv & Hx & ->), H0 as (j & w & Hj & Hw & Hy & ->).
  cbn [c_outport hcx] in E. apply hc_port_inj in E; auto. destruct E; subst; auto.
Qed.
Lemma hc_unique : forall dims, pos_dims dims -> ports_unique (hc_outports dims) (prod dims).
Proof.
  intros dims P. apply paired_unique; auto using hc_paired. intros. eapply hc_outport_unique; eauto.
Qed.

Lemma hc_next : forall dims s i v, pos_dims dims -> s < prod dims -> i < length dims -> v < nth i dims 0 ->
  v <> coord dims i s ->
  far_end (hc_outports dims) (prod dims) s (hc_port dims i v) = Some (setc dims i v s).
Proof.
  intros. change (hc_port dims i v) with (c_outport (hcx dims s i v)).
  assert (In (hcx dims s i v) (hc_outports dims s)) by (apply in_hc; auto; exists i, v; auto).
  apply far_end_in; auto.
  - apply setc_lt with (d := nth i dims 0); auto using nth_dim.
  - intros. eapply hc_outport_unique; eauto.
Qed.

(** ** distance *)
Definition ham (d x y : nat) : nat := if x =? y then 0 else 1.
Lemma hc_distance_eq : forall dims s t, pos_dims dims -> hc_distance dims s t = sumd ham dims s t.
Proof.
  unfold hc_distance. intros dims s t P.
  assert (forall dims div, 0 < div -> pos_dims dims -> hc_dist_loop div dims s t = sumd ham dims (s / div) (t / div)).
  { induction dims0; intros; simpl; auto. inversion H0; subst. rewrite IHdims0 by (auto; nia).
    rewrite !Nat.div_div by lia. auto. }
  rewrite H by (auto; lia). rewrite !Nat.div_1_r. auto.
Qed.
Lemma ham_zero : forall d x y, x < d -> y < d -> ham d x y = 0 -> x = y.
Proof. unfold ham; intros. destruct (Nat.eqb_spec x y); auto; lia. Qed.
Lemma ham_refl : forall dims s, sumd ham dims s s = 0.
Proof. induction dims; intros; simpl; auto. rewrite IHdims. unfold ham. rewrite Nat.eqb_refl. auto. Qed.

Lemma hc_route_char : forall dims s t, pos_dims dims -> s < prod dims -> t < prod dims -> s <> t ->
  exists j, j < length dims /\ (forall k, k < j -> coord dims k s = coord dims k t) /\
    coord dims j s <> coord dims j t /\
    hc_minimal_route dims s t = Some (hc_port dims j (coord dims j t)).
Proof.
  intros dims s t P Hs Ht Hne. unfold hc_minimal_route.
  assert (forall all dims i div, 0 < div -> pos_dims dims -> 
    s / div < prod dims -> t / div < prod dims -> s / div <> t / div ->
    exists j, j < length dims /\ (forall k, k < j -> coord dims k (s / div) = coord dims k (t / div)) /\
    coord dims j (s / div) <> coord dims j (t / div) /\
    hc_route_loop all i div dims s t = Some (hc_port all (i + j) (coord dims j (t / div)))).
  { clear. induction dims; intros; simpl in *; [lia|]. inversion H0; subst.
    destruct (Nat.eqb_spec ((s / div) mod a) ((t / div) mod a)); simpl.
    - assert (s / div / a <> t / div / a).
      { intro. pose proof (Nat.div_mod (s / div) a ltac:(lia)). pose proof (Nat.div_mod (t / div) a ltac:(lia)). nia. }
      assert (s / div / a < prod dims) by (apply div_lt; lia). assert (t / div / a < prod dims) by (apply div_lt; lia).
      rewrite !Nat.div_div in * by lia.
      destruct (IHdims (S i) (div * a) ltac:(nia) H7 H5 H8 H4) as (j & Hj & Heq & Hn & Hr).
      exists (S j). repeat split; try lia.
      + intros k Hk. destruct k. rewrite !coord_0; auto. rewrite !coord_S, !Nat.div_div by lia. apply Heq; lia.
      + rewrite !coord_S, !Nat.div_div by lia. auto.
      + rewrite Hr, !coord_S, !Nat.div_div by lia. replace (i + S j) with (S i + j) by lia. auto.
    - exists 0. rewrite !coord_0. repeat split; try lia; auto; rewrite ?Nat.add_0_r; auto. }
  specialize (H dims dims 0 1). rewrite !Nat.div_1_r in H. simpl in H. apply H; auto.
Qed.

Lemma hc_walk : forall dims conc nid, pos_dims dims -> nid / conc < prod dims ->
  forall n s, s < prod dims -> sumd ham dims s (nid / conc) = n ->
  exists tr, gwalk (far_end (hc_outports dims) (prod dims)) (hc_route dims conc nid) (S n) s tt
     = Some (tr, nid / conc, nid mod conc + list_sum dims) /\ length tr = n.
Proof.
  intros dims conc nid P T. induction n; intros.
  - apply sumd_zero in H0; auto; [|exact ham_zero]. subst s. exists []. cbn [gwalk]. unfold hc_route.
    rewrite Nat.eqb_refl. auto.
  - assert (Hne : s <> nid / conc). { intro. subst s. rewrite ham_refl in H0. discriminate. }
    destruct (hc_route_char dims s (nid / conc) P H T Hne) as (j & Hj & _ & Hx & Hr).
    pose proof (coord_lt' dims j (nid / conc) P Hj) as Hv.
    pose proof (hc_next dims s j _ P H Hj Hv ltac:(auto)) as Hn.
    assert (Hl : setc dims j (coord dims j (nid / conc)) s < prod dims)
      by (apply setc_lt with (d := nth j dims 0); auto using nth_dim).
    pose proof (setc_sum ham dims j (nth j dims 0) (coord dims j (nid / conc)) s (nid / conc) (nth_dim _ _ Hj) P Hv) as Hd.
    assert (E1 : ham (nth j dims 0) (coord dims j s) (coord dims j (nid / conc)) = 1).
    { unfold ham. destruct (Nat.eqb_spec (coord dims j s) (coord dims j (nid / conc))); congruence. }
    assert (E2 : ham (nth j dims 0) (coord dims j (nid / conc)) (coord dims j (nid / conc)) = 0).
    { unfold ham. rewrite Nat.eqb_refl. auto. }
    destruct (IHn _ Hl ltac:(lia)) as (tr & Hw & Hlen).
    exists (Chan s (hc_port dims j (coord dims j (nid / conc))) 0 :: tr). split; [|simpl; lia].
    remember (S n) as m. cbn [gwalk]. unfold hc_route at 1.
    destruct (Nat.eqb_spec (nid / conc) s); try congruence. rewrite Hr, Hn, Hw. auto.
Qed.

Lemma hc_lower : forall dims n s t, pos_dims dims -> s < prod dims -> ghops (hc_outports dims) n s t ->
  hc_distance dims s t <= n.
Proof.
  intros dims n s t P L H. rewrite hc_distance_eq by auto. revert L. induction H; intros.
  - rewrite ham_refl; auto.
  - apply in_hc in H; auto. destruct H as (i & v & Hi & Hv & Hx & ->).
    cbn [c_dst hcx] in H0. apply Nat2Z.inj in H0. subst s'.
    specialize (IHghops ltac:(apply setc_lt with (d := nth i dims 0); auto using nth_dim)).
    pose proof (setc_sum ham dims i (nth i dims 0) v s t (nth_dim _ _ Hi) P Hv) as Hd.
    assert (ham (nth i dims 0) (coord dims i s) (coord dims i t) <= 1) by (unfold ham; destruct (_ =? _); lia).
    lia.
Qed.

(** Rank of a channel under minimal routing: its dimension. *)
Lemma port_dim_exists : forall dims p, p < list_sum dims ->
  exists i v, i < length dims /\ v < nth i dims 0 /\ p = hc_port dims i v.
Proof.
  induction dims; intros p Hp; [simpl in Hp; lia|]. change (list_sum (a :: dims)) with (a + list_sum dims) in Hp.
  destruct (lt_dec p a).
  - exists 0, p. simpl. repeat split; auto; lia.
  - destruct (IHdims (p - a) ltac:(lia)) as (i & v & Hi & Hv & E).
    exists (S i), v. repeat split; simpl; auto; try lia. unfold hc_port, dim_to_outport in *. simpl.
    unfold list_sum in *. lia.
Qed.
(** number of whole dimensions below a port *)
Fixpoint port_dim (dims : list nat) (p : nat) : nat :=
  match dims with [] => 0 | d :: r => if p <? d then 0 else S (port_dim r (p - d)) end.
Lemma port_dim_ok : forall dims i v, i < length dims -> v < nth i dims 0 -> port_dim dims (hc_port dims i v) = i.
Proof.
  induction dims; intros; simpl in *; [lia|]. destruct i; unfold hc_port, dim_to_outport in *.
  - simpl. destruct (Nat.ltb_spec v a); lia.
  - cbn [firstn]. change (list_sum (a :: firstn i dims)) with (a + list_sum (firstn i dims)).
    destruct (Nat.ltb_spec (a + list_sum (firstn i dims) + v) a); try lia. f_equal.
    replace (a + list_sum (firstn i dims) + v - a) with (list_sum (firstn i dims) + v) by lia.
    apply IHdims; auto. lia.
Qed.

Lemma hc_deadlock_free : forall dims conc, pos_dims dims -> 0 < conc ->
  deadlock_free (gwaits_for (far_end (hc_outports dims) (prod dims)) (prod dims) (prod dims * conc) tt
     (fun _ nid r => r = hc_route dims conc nid)).
Proof.
  intros dims conc P C.
  apply ranked_acyclic with (fun c => (port_dim dims (ch_port c), 0)).
  intros a b (s & nid & r & fuel & tr & e & p & Hs & Ht & -> & Hw & Hab).
  assert (T : nid / conc < prod dims) by (apply Nat.div_lt_upper_bound; lia).
  refine (ranked_walk unit _ (hc_route dims conc nid) (fun s _ => s < prod dims)
    (fun c => (port_dim dims (ch_port c), 0)) _ _ fuel s tt tr e p Hs Hw a b Hab); clear - P T.
  - intros s0 h p0 vc h' s' _ _ N. apply far_end_cable in N. destruct N; auto.
  - intros s0 h p0 vc h' s' p2 vc2 h2 Hi R N R2.
    unfold hc_route in R, R2.
    destruct (Nat.eqb_spec (nid / conc) s0); try discriminate.
    destruct (Nat.eqb_spec (nid / conc) s'); try discriminate.
    destruct (hc_route_char dims s0 (nid / conc) P Hi T ltac:(auto)) as (j & Hj & Hp & Hx & Hr).
    rewrite Hr in R. injection R; intros; subst.
    pose proof (coord_lt' dims j (nid / conc) P Hj) as Hv.
    rewrite hc_next in N by auto. injection N; intros; subst s'.
    assert (Hl : setc dims j (coord dims j (nid / conc)) s0 < prod dims)
      by (apply setc_lt with (d := nth j dims 0); auto using nth_dim).
    destruct (hc_route_char dims _ (nid / conc) P Hl T ltac:(auto)) as (j2 & Hj2 & Hp2 & Hx2 & Hr2).
    rewrite Hr2 in R2. injection R2; intros; subst.
    pose proof (coord_lt' dims j2 (nid / conc) P Hj2) as Hv2.
    left. cbn [fst ch_port]. rewrite !port_dim_ok by auto.
    rewrite setc_coord with (d := nth j dims 0) in Hx2 by auto using nth_dim.
    destruct (Nat.eqb_spec j2 j); [congruence|].
    destruct (Nat.lt_trichotomy j j2) as [Q|[Q|Q]]; try lia.
    exfalso. apply Hx2. apply Hp; auto.
Qed.
