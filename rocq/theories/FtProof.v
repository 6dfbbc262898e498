From Coq Require Import List ZArith Arith Bool Lia Relations.
From Verif Require Import TorusModel NetModel FtModel TorusSpec NetSpec TorusRoute NetProof.
Import ListNotations.

Definition accepted (p : ft) : Prop :=
  0 < fL p /\ 0 < fA p /\ 0 < fT p /\ 0 < fC p /\ check_input p = true.

Record facts (p : ft) : Prop := Facts {
  a_L : 0 < fL p; a_A : 0 < fA p; a_T : 0 < fT p; a_C : 0 < fC p;
  a_DC : fT p <= fDC p; a_D : fL p <= fD p; a_U : fA p <= fU p; a_UA : 0 < fUA p;
  a_k : exists k, fD p = k * fL p; a_j : exists j, fDC p = j * fT p;
  a_core : fC p * fDC p = num_agg p * fUA p; a_leaf : fA p * fD p = fL p * fU p }.

Lemma acc_facts : forall p, accepted p -> facts p.
Proof.
  intros p (HL & HA & HT & HC & H). unfold check_input in H.
  repeat rewrite andb_true_iff in H. rewrite !negb_true_iff, !Nat.ltb_ge, !Nat.eqb_eq in H.
  destruct H as ((((((((H1 & H2) & H3) & H4) & H5) & H6) & H7) & H8) & H9).
  constructor; auto.
  - unfold num_agg in H8. destruct (fUA p); [|lia]. nia.
  - apply Nat.mod_divides in H4; [|lia]. destruct H4 as [k ->]. exists k. lia.
  - apply Nat.mod_divides in H3; [|lia]. destruct H3 as [k ->]. exists k. lia.
Qed.

Lemma dm : forall b q r, r < b -> (q * b + r) / b = q /\ (q * b + r) mod b = r.
Proof.
  intros. split.
  - rewrite Nat.div_add_l by lia. rewrite Nat.div_small by auto. lia.
  - rewrite Nat.add_comm, Nat.mod_add by lia. apply Nat.mod_small; auto.
Qed.
Lemma decomp : forall b x, 0 < b -> exists q r, x = q * b + r /\ r < b /\ x / b = q /\ x mod b = r.
Proof.
  intros. exists (x / b), (x mod b). pose proof (Nat.div_mod x b ltac:(lia)).
  repeat split; [lia|apply Nat.mod_upper_bound; lia].
Qed.

Section F.
Variable p : ft.
Hypothesis F : facts p.
Let N := ft_switches p.

(** switch ids *)
Definition aggid (t a : nat) := num_leaf p + (t * fA p + a).
Definition coreid (c : nat) := num_leaf p + num_agg p + c.
Lemma agg_range : forall t a, t < fT p -> a < fA p -> num_leaf p <= aggid t a < num_leaf p + num_agg p.
Proof. unfold aggid, num_agg. intros. nia. Qed.
Lemma agg_sub : forall t a, aggid t a - num_leaf p = t * fA p + a.
Proof. unfold aggid. intros. lia. Qed.
Lemma agg_inv : forall s, num_leaf p <= s < num_leaf p + num_agg p ->
  exists t a, t < fT p /\ a < fA p /\ s = aggid t a.
Proof.
  intros. destruct (decomp (fA p) (s - num_leaf p) (a_A p F)) as (q & r & E & Hr & _ & _).
  exists q, r. unfold aggid, num_agg in *. repeat split; auto; try nia.
Qed.

Lemma ftc_leaf : forall s, s < num_leaf p -> ft_conns p s = leaf_conns p s.
Proof. intros. unfold ft_conns. destruct (Nat.ltb_spec s (num_leaf p)); auto; lia. Qed.
Lemma ftc_agg : forall t a, t < fT p -> a < fA p ->
  ft_conns p (aggid t a) = agg_up_conns p (aggid t a) ++ agg_down_conns p (aggid t a).
Proof.
  intros. pose proof (agg_range t a H H0). unfold ft_conns.
  destruct (Nat.ltb_spec (aggid t a) (num_leaf p)); try lia.
  destruct (Nat.ltb_spec (aggid t a) (num_leaf p + num_agg p)); auto; lia.
Qed.
Lemma ftc_core : forall c, ft_conns p (coreid c) = core_conns p (coreid c).
Proof.
  intros. unfold ft_conns, coreid.
  destruct (Nat.ltb_spec (num_leaf p + num_agg p + c) (num_leaf p)); try lia.
  destruct (Nat.ltb_spec (num_leaf p + num_agg p + c) (num_leaf p + num_agg p)); auto; lia.
Qed.

(** the cables *)
Definition c_la (s u : nat) : conn :=
  let g := s mod fL p + u * fL p in Conn s (Z.of_nat (aggid (s / fL p) (g / fD p))) u (g mod fD p).
Definition c_ac (t a u : nat) : conn :=
  let g := u * num_agg p + a * fT p + t in
  Conn (aggid t a) (Z.of_nat (coreid (g / fDC p))) (fD p + u) (g mod fDC p).
Definition c_al (t a d : nat) : conn :=
  Conn (aggid t a) (Z.of_nat (t * fL p + d mod fL p)) d (agg_leaf_port p a d).
Definition c_ca (c d : nat) : conn :=
  let g := c * fDC p + d in
  Conn (coreid c) (Z.of_nat (aggid (g mod fT p) (g mod num_agg p / fT p))) d (g / num_agg p + fD p).

Lemma in_leaf : forall s c, s < num_leaf p -> (In c (ft_conns p s) <-> exists u, u < fU p /\ c = c_la s u).
Proof.
  intros. rewrite ftc_leaf by auto. unfold leaf_conns. rewrite in_map_iff. split.
  - intros (u & <- & Hu). apply in_seq in Hu. exists u. split; [lia|]. unfold c_la, aggid.
    rewrite Nat.add_assoc. auto.
  - intros (u & Hu & ->). exists u. split; [|apply in_seq; lia]. unfold c_la, aggid. rewrite Nat.add_assoc. auto.
Qed.
Lemma in_agg : forall t a c, t < fT p -> a < fA p ->
  (In c (ft_conns p (aggid t a)) <->
   (exists u, u < fUA p /\ c = c_ac t a u) \/ (exists d, d < fD p /\ c = c_al t a d)).
Proof.
  intros. rewrite ftc_agg by auto. rewrite in_app_iff. unfold agg_up_conns, agg_down_conns.
  rewrite agg_sub. destruct (dm (fA p) t a H0) as [-> ->]. rewrite !in_map_iff.
  split; (intros [(u & H1 & H2)|(u & H1 & H2)]; [left|right]).
  - apply in_seq in H2. exists u. split; [lia|]. subst c. reflexivity.
  - apply in_seq in H2. exists u. split; [lia|]. subst c. reflexivity.
  - exists u. split; [|apply in_seq; lia]. subst c. reflexivity.
  - exists u. split; [|apply in_seq; lia]. subst c. reflexivity.
Qed.
Lemma in_core : forall k c, In c (ft_conns p (coreid k)) <-> exists d, d < fDC p /\ c = c_ca k d.
Proof.
  intros. rewrite ftc_core. unfold core_conns.
  replace (coreid k - num_agg p - num_leaf p) with k by (unfold coreid; lia).
  rewrite in_map_iff. split.
  - intros (u & <- & Hu). apply in_seq in Hu. exists u. split; [lia|]. unfold c_ca, aggid.
    rewrite Nat.add_assoc. auto.
  - intros (u & Hu & ->). exists u. split; [|apply in_seq; lia]. unfold c_ca, aggid. rewrite Nat.add_assoc. auto.
Qed.

Lemma sw_cases : forall s, s < N -> s < num_leaf p \/ (exists t a, t < fT p /\ a < fA p /\ s = aggid t a) \/
  exists c, c < fC p /\ s = coreid c.
Proof.
  unfold N, ft_switches. intros. destruct (lt_dec s (num_leaf p)); auto. right.
  destruct (lt_dec s (num_leaf p + num_agg p)).
  - left. apply agg_inv. lia.
  - right. exists (s - num_leaf p - num_agg p). unfold coreid. lia.
Qed.
Lemma leaf_N : forall s, s < num_leaf p -> s < N. Proof. unfold N, ft_switches. lia. Qed.
Lemma agg_N : forall t a, t < fT p -> a < fA p -> aggid t a < N.
Proof. intros. pose proof (agg_range t a H H0). unfold N, ft_switches. lia. Qed.
Lemma core_N : forall c, c < fC p -> coreid c < N. Proof. unfold N, ft_switches, coreid. lia. Qed.

Lemma leaf_tree : forall s, s < num_leaf p -> s / fL p < fT p.
Proof. intros. pose proof (a_L p F). apply Nat.div_lt_upper_bound; [lia|]. unfold num_leaf in H. auto. Qed.
Lemma la_spot : forall s u, u < fU p -> (s mod fL p + u * fL p) / fD p < fA p.
Proof.
  intros. pose proof (a_L p F). pose proof (a_D p F). pose proof (a_leaf p F).
  pose proof (Nat.mod_upper_bound s (fL p) ltac:(lia)).
  apply Nat.div_lt_upper_bound; [lia|]. nia.
Qed.
Lemma ac_g : forall t a u, t < fT p -> a < fA p -> u < fUA p ->
  u * num_agg p + a * fT p + t < fC p * fDC p.
Proof.
  intros. rewrite (a_core p F). assert (a * fT p + t < num_agg p) by (unfold num_agg; nia). nia.
Qed.
Lemma ac_spot : forall t a u, t < fT p -> a < fA p -> u < fUA p ->
  (u * num_agg p + a * fT p + t) / fDC p < fC p.
Proof.
  intros. pose proof (ac_g t a u H H0 H1). pose proof (a_DC p F). pose proof (a_T p F).
  apply Nat.div_lt_upper_bound; [lia|]. nia.
Qed.
Lemma na_pos : 0 < num_agg p.
Proof. unfold num_agg. pose proof (a_A p F). pose proof (a_T p F). nia. Qed.
Lemma ca_tree : forall g, g mod fT p < fT p.
Proof. intros. apply Nat.mod_upper_bound. pose proof (a_T p F). lia. Qed.
Lemma ca_spot : forall g, g mod num_agg p / fT p < fA p.
Proof.
  intros. pose proof (a_T p F). pose proof na_pos. pose proof (Nat.mod_upper_bound g (num_agg p) ltac:(lia)).
  apply Nat.div_lt_upper_bound; [lia|]. unfold num_agg in *. lia.
Qed.
Lemma al_leaf : forall t d, t < fT p -> t * fL p + d mod fL p < num_leaf p.
Proof.
  intros. pose proof (a_L p F). pose proof (Nat.mod_upper_bound d (fL p) ltac:(lia)). unfold num_leaf. nia.
Qed.

(** agg/core pairing, both ways *)
Lemma ac_back : forall t a u, t < fT p -> a < fA p -> u < fUA p ->
  let g := u * num_agg p + a * fT p + t in
  g mod fDC p < fDC p /\
  c_ca (g / fDC p) (g mod fDC p) = Conn (coreid (g / fDC p)) (Z.of_nat (aggid t a)) (g mod fDC p) (fD p + u).
Proof.
  intros t a u Ht Ha Hu g. pose proof (a_DC p F). pose proof (a_T p F). pose proof na_pos.
  split; [apply Nat.mod_upper_bound; lia|]. unfold c_ca.
  replace (g / fDC p * fDC p + g mod fDC p) with g.
  2:{ pose proof (Nat.div_mod g (fDC p) ltac:(lia)). lia. }
  assert (E1 : g mod fT p = t).
  { unfold g, num_agg. replace (u * (fA p * fT p) + a * fT p + t) with ((u * fA p + a) * fT p + t) by lia.
    apply dm; auto. }
  assert (Hlt : a * fT p + t < num_agg p) by (unfold num_agg; nia).
  assert (E2 : g mod num_agg p = a * fT p + t).
  { unfold g. rewrite <- Nat.add_assoc. apply dm; auto. }
  assert (E3 : g / num_agg p = u).
  { unfold g. rewrite <- Nat.add_assoc. apply dm; auto. }
  rewrite E1, E2, E3. destruct (dm (fT p) a t Ht) as [-> _]. f_equal. lia.
Qed.
Lemma ca_back : forall c d, c < fC p -> d < fDC p ->
  let g := c * fDC p + d in
  g / num_agg p < fUA p /\
  c_ac (g mod fT p) (g mod num_agg p / fT p) (g / num_agg p) =
    Conn (aggid (g mod fT p) (g mod num_agg p / fT p)) (Z.of_nat (coreid c)) (fD p + g / num_agg p) d.
Proof.
  intros c d Hc Hd g. pose proof (a_T p F) as HT. pose proof na_pos as HN. pose proof (a_core p F) as HC.
  assert (Hg : g < fUA p * num_agg p) by (unfold g; nia).
  split; [apply Nat.div_lt_upper_bound; lia|]. unfold c_ac.
  assert (E : g / num_agg p * num_agg p + g mod num_agg p / fT p * fT p + g mod fT p = g).
  { pose proof (Nat.div_mod g (num_agg p) ltac:(lia)) as E1.
    pose proof (Nat.div_mod (g mod num_agg p) (fT p) ltac:(lia)) as E2.
    assert (E3 : (g mod num_agg p) mod fT p = g mod fT p).
    { rewrite E1 at 2. rewrite Nat.add_comm. unfold num_agg at 3.
      replace (fA p * fT p * (g / num_agg p)) with (fA p * (g / num_agg p) * fT p) by lia.
      rewrite Nat.mod_add by lia. auto. }
    rewrite E3 in E2. lia. }
  rewrite E. unfold g. destruct (dm (fDC p) c d Hd) as [-> ->]. auto.
Qed.

(** out ports are distinct *)
Lemma ft_out_unique : forall s c c', s < N -> In c (ft_conns p s) -> In c' (ft_conns p s) ->
  c_outport c = c_outport c' -> c = c'.
Proof.
  intros s c c' Hs H H0 E. destruct (sw_cases s Hs) as [Hl|[(t & a & Ht & Ha & ->)|(k & Hk & ->)]].
  - apply in_leaf in H, H0; auto. destruct H as (u & Hu & ->), H0 as (v & Hv & ->). simpl in E. subst; auto.
  - apply in_agg in H, H0; auto.
    destruct H as [(u & Hu & ->)|(u & Hu & ->)], H0 as [(v & Hv & ->)|(v & Hv & ->)]; simpl in E; try lia.
    + assert (u = v) by lia. subst; auto.
    + subst; auto.
  - apply in_core in H, H0. destruct H as (u & Hu & ->), H0 as (v & Hv & ->). simpl in E. subst; auto.
Qed.

Let next := far_end (ft_conns p) N.
Lemma next_leaf : forall s u, s < num_leaf p -> u < fU p ->
  exists a, a < fA p /\ next s u = Some (aggid (s / fL p) a).
Proof.
  intros. exists ((s mod fL p + u * fL p) / fD p). split; [apply la_spot; auto|].
  apply (far_end_in (ft_conns p) N s (c_la s u)).
  - apply in_leaf; eauto.
  - reflexivity.
  - apply agg_N; auto using leaf_tree, la_spot.
  - intros. eapply ft_out_unique; eauto using leaf_N. apply in_leaf; eauto.
Qed.
Lemma next_up : forall t a u, t < fT p -> a < fA p -> u < fUA p ->
  exists c, c < fC p /\ next (aggid t a) (fD p + u) = Some (coreid c).
Proof.
  intros. exists ((u * num_agg p + a * fT p + t) / fDC p). split; [apply ac_spot; auto|].
  apply (far_end_in (ft_conns p) N (aggid t a) (c_ac t a u)).
  - apply in_agg; eauto.
  - reflexivity.
  - apply core_N, ac_spot; auto.
  - intros. eapply ft_out_unique; eauto using agg_N. apply in_agg; eauto.
Qed.
Lemma next_down : forall t a d, t < fT p -> a < fA p -> d < fD p ->
  next (aggid t a) d = Some (t * fL p + d mod fL p).
Proof.
  intros. apply (far_end_in (ft_conns p) N (aggid t a) (c_al t a d)).
  - apply in_agg; eauto.
  - reflexivity.
  - apply leaf_N, al_leaf; auto.
  - intros. eapply ft_out_unique; eauto using agg_N. apply in_agg; eauto.
Qed.
Lemma next_core : forall c d, c < fC p -> d < fDC p ->
  next (coreid c) d = Some (aggid ((c * fDC p + d) mod fT p) ((c * fDC p + d) mod num_agg p / fT p)).
Proof.
  intros. apply (far_end_in (ft_conns p) N (coreid c) (c_ca c d)).
  - apply in_core; eauto.
  - reflexivity.
  - apply agg_N; auto using ca_tree, ca_spot.
  - intros. eapply ft_out_unique; eauto using core_N. apply in_core; eauto.
Qed.

(** the routing tables *)
Lemma agg_quot : forall t a, a < fA p ->
  Z.quot (Z.of_nat (aggid t a) - Z.of_nat (num_leaf p)) (Z.of_nat (fA p)) = Z.of_nat t.
Proof.
  intros. pose proof (a_A p F). unfold aggid.
  replace (Z.of_nat (num_leaf p + (t * fA p + a)) - Z.of_nat (num_leaf p))%Z with (Z.of_nat (t * fA p + a)) by lia.
  rewrite Z.quot_div_nonneg by lia. rewrite <- Nat2Z.inj_div. f_equal. apply dm; auto.
Qed.
Lemma core_routes_in : forall c path d, c < fC p ->
  (In d (core_routes p (coreid c) path) <-> d < fDC p /\ (c * fDC p + d) mod fT p = path).
Proof.
  intros. unfold core_routes. rewrite in_map_iff. split.
  - intros (k & <- & Hk). apply filter_In in Hk. destruct Hk as [Hin Hq]. apply in_core in Hin.
    destruct Hin as (d & Hd & ->). unfold c_ca in Hq |- *. cbn [c_dst c_outport] in *.
    rewrite agg_quot in Hq by apply ca_spot. apply Z.eqb_eq in Hq. split; auto. lia.
  - intros [Hd E]. exists (c_ca c d). split; auto. apply filter_In. split; [apply in_core; eauto|].
    unfold c_ca. cbn [c_dst]. rewrite agg_quot by apply ca_spot. apply Z.eqb_eq. lia.
Qed.
Lemma agg_routes_in : forall t a path d, t < fT p -> a < fA p ->
  (In d (agg_routes p (aggid t a) path) <-> d < fD p /\ d mod fL p = path).
Proof.
  intros t a path d Ht Ha. pose proof (a_L p F) as HL. pose proof (agg_range t a Ht Ha) as HR.
  assert (Q : forall d, Z.rem (Z.of_nat (t * fL p + d mod fL p)) (Z.of_nat (fL p)) = Z.of_nat (d mod fL p)).
  { intros. rewrite Z.rem_mod_nonneg by lia. rewrite <- Nat2Z.inj_mod. f_equal. apply dm.
    apply Nat.mod_upper_bound; lia. }
  unfold agg_routes. rewrite in_map_iff. split.
  - intros (k & <- & Hk). apply filter_In in Hk. destruct Hk as [Hin Hq]. apply andb_true_iff in Hq.
    destruct Hq as [Hq1 Hq2]. apply Z.ltb_lt in Hq1. apply Z.eqb_eq in Hq2. apply in_agg in Hin; auto.
    destruct Hin as [(u & Hu & ->)|(u & Hu & ->)].
    + unfold c_ac in Hq1. cbn [c_dst] in Hq1. unfold coreid in Hq1. lia.
    + unfold c_al in *. cbn [c_dst c_outport] in *. rewrite Q in Hq2. split; auto. lia.
  - intros [Hd E]. exists (c_al t a d). split; auto. apply filter_In. split; [apply in_agg; eauto|].
    unfold c_al. cbn [c_dst]. pose proof (al_leaf t d Ht). apply andb_true_iff. split; [apply Z.ltb_lt; lia|].
    rewrite Q. apply Z.eqb_eq. lia.
Qed.
Lemma core_routes_some : forall c path, c < fC p -> path < fT p -> core_routes p (coreid c) path <> [].
Proof.
  intros c path Hc Hp E. destruct (a_j p F) as [j Hj]. pose proof (a_DC p F).
  assert (In path (core_routes p (coreid c) path)).
  { apply core_routes_in; auto. split; [lia|]. rewrite Hj.
    replace (c * (j * fT p) + path) with ((c * j) * fT p + path) by lia. apply dm; auto. }
  rewrite E in H0. contradiction.
Qed.
Lemma agg_routes_some : forall t a path, t < fT p -> a < fA p -> path < fL p -> agg_routes p (aggid t a) path <> [].
Proof.
  intros t a path Ht Ha Hp E. pose proof (a_D p F).
  assert (In path (agg_routes p (aggid t a) path)).
  { apply agg_routes_in; auto. split; [lia|]. apply Nat.mod_small; auto. }
  rewrite E in H0. contradiction.
Qed.
Lemma rot_lt : forall my n k, 0 < n -> rotater my n k < n.
Proof. intros. destruct k; simpl; apply Nat.mod_upper_bound; lia. Qed.
Lemma rot_in : forall my (r : list nat) k, r <> [] -> In (nth (rotater my (length r) k) r 0) r.
Proof. intros. apply nth_In. apply rot_lt. destruct r; [congruence|simpl; lia]. Qed.

(** routing *)
Variables (conc nid : nat) (ku : nat -> nat) (kd : nat -> nat -> nat).
Let dst := nid / conc.
Hypothesis Hdst : dst < num_leaf p.
Let route := ft_route p conc ku kd nid.
Let ej := nid mod conc + fU p.

Lemma rt_here : route dst tt = Eject ej.
Proof. unfold route, ft_route. fold dst. rewrite Nat.eqb_refl. auto. Qed.
Lemma rt_leaf : forall s, s < num_leaf p -> s <> dst -> exists u, u < fU p /\ route s tt = Forward u 0 tt.
Proof.
  intros. pose proof (a_U p F). pose proof (a_A p F).
  exists (rotater s (fU p) (ku s)). split; [apply rot_lt; lia|].
  unfold route, ft_route. fold dst. destruct (Nat.eqb_spec dst s); [congruence|].
  destruct (Nat.leb_spec (num_leaf p + num_agg p) s); try lia.
  destruct (Nat.leb_spec (num_leaf p) s); try lia. auto.
Qed.
Lemma rt_agg_down : forall a, a < fA p ->
  exists d, d < fD p /\ d mod fL p = dst mod fL p /\ route (aggid (dst / fL p) a) tt = Forward d 0 tt.
Proof.
  intros a Ha. pose proof (leaf_tree dst Hdst) as Ht. pose proof (agg_range _ a Ht Ha) as HR.
  pose proof (a_L p F) as HL.
  set (r := agg_routes p (aggid (dst / fL p) a) (dst mod fL p)).
  pose proof (rot_in (aggid (dst / fL p) a) r (kd (aggid (dst / fL p) a) (dst mod fL p))
     (agg_routes_some _ _ _ Ht Ha (Nat.mod_upper_bound dst (fL p) ltac:(lia)))) as Hin.
  apply agg_routes_in in Hin; auto. destruct Hin as [H1 H2].
  eexists. split; [exact H1|]. split; [exact H2|].
  unfold route, ft_route. fold dst. destruct (Nat.eqb_spec dst (aggid (dst / fL p) a)); [lia|].
  destruct (Nat.leb_spec (num_leaf p + num_agg p) (aggid (dst / fL p) a)); try lia.
  destruct (Nat.leb_spec (num_leaf p) (aggid (dst / fL p) a)); try lia.
  rewrite agg_sub. destruct (dm (fA p) (dst / fL p) a Ha) as [-> _]. unfold leaf_subtree. rewrite Nat.eqb_refl. auto.
Qed.
Lemma rt_agg_up : forall t a, t < fT p -> a < fA p -> t <> dst / fL p ->
  exists u, u < fUA p /\ route (aggid t a) tt = Forward (fD p + u) 0 tt.
Proof.
  intros t a Ht Ha Hne. pose proof (agg_range _ a Ht Ha) as HR. pose proof (a_UA p F).
  exists (rotater (aggid t a) (fUA p) (ku (aggid t a))). split; [apply rot_lt; auto|].
  unfold route, ft_route. fold dst. destruct (Nat.eqb_spec dst (aggid t a)); [lia|].
  destruct (Nat.leb_spec (num_leaf p + num_agg p) (aggid t a)); try lia.
  destruct (Nat.leb_spec (num_leaf p) (aggid t a)); try lia.
  rewrite agg_sub. destruct (dm (fA p) t a Ha) as [-> _]. unfold leaf_subtree.
  destruct (Nat.eqb_spec (dst / fL p) t); [congruence|auto].
Qed.
Lemma rt_core : forall c, c < fC p ->
  exists d, d < fDC p /\ (c * fDC p + d) mod fT p = dst / fL p /\ route (coreid c) tt = Forward d 0 tt.
Proof.
  intros c Hc. pose proof (leaf_tree dst Hdst) as Ht.
  set (r := core_routes p (coreid c) (dst / fL p)).
  pose proof (rot_in (coreid c) r (kd (coreid c) (dst / fL p)) (core_routes_some _ _ Hc Ht)) as Hin.
  apply core_routes_in in Hin; auto. destruct Hin as [H1 H2].
  eexists. split; [exact H1|]. split; [exact H2|].
  unfold route, ft_route. fold dst. destruct (Nat.eqb_spec dst (coreid c)); [unfold coreid in e; lia|].
  destruct (Nat.leb_spec (num_leaf p + num_agg p) (coreid c)); [auto|unfold coreid in H; lia].
Qed.
Lemma down_dst : forall d, d mod fL p = dst mod fL p -> dst / fL p * fL p + d mod fL p = dst.
Proof.
  intros. rewrite H. pose proof (a_L p F). pose proof (Nat.div_mod dst (fL p) ltac:(lia)). lia.
Qed.

(** the three shapes of a path *)
Lemma ft_walk : forall s, s < num_leaf p ->
  (s = dst /\ gwalk next route 5 s tt = Some ([], dst, ej)) \/
  (s <> dst /\ s / fL p = dst / fL p /\ exists u a d, u < fU p /\ a < fA p /\ d < fD p /\
     gwalk next route 5 s tt = Some ([Chan s u 0; Chan (aggid (dst / fL p) a) d 0], dst, ej)) \/
  (s / fL p <> dst / fL p /\ exists u a v c e a' d, u < fU p /\ a < fA p /\ v < fUA p /\ c < fC p /\
     e < fDC p /\ a' < fA p /\ d < fD p /\
     gwalk next route 5 s tt = Some ([Chan s u 0; Chan (aggid (s / fL p) a) (fD p + v) 0;
        Chan (coreid c) e 0; Chan (aggid (dst / fL p) a') d 0], dst, ej)).
Proof.
  intros s Hs. destruct (Nat.eq_dec s dst) as [E|E].
  { left. split; auto. rewrite E. cbn [gwalk]. rewrite rt_here. auto. }
  right. destruct (rt_leaf s Hs E) as (u & Hu & Ru). destruct (next_leaf s u Hs Hu) as (a & Ha & Nu).
  destruct (Nat.eq_dec (s / fL p) (dst / fL p)) as [Et|Et].
  - left. split; auto. split; auto. destruct (rt_agg_down a Ha) as (d & Hd & Ed & Rd).
    exists u, a, d. repeat split; auto.
    cbn [gwalk]. rewrite Ru, Nu, Et, Rd, next_down, down_dst, rt_here by auto using leaf_tree. auto.
  - right. split; auto.
    destruct (rt_agg_up _ a (leaf_tree s Hs) Ha Et) as (v & Hv & Rv).
    destruct (next_up _ a v (leaf_tree s Hs) Ha Hv) as (c & Hc & Nc).
    destruct (rt_core c Hc) as (e & He & Ee & Re).
    set (a' := (c * fDC p + e) mod num_agg p / fT p).
    assert (Ha' : a' < fA p) by apply ca_spot.
    destruct (rt_agg_down a' Ha') as (d & Hd & Ed & Rd).
    exists u, a, v, c, e, a', d. repeat split; auto.
    cbn [gwalk]. rewrite Ru, Nu, Rv, Nc, Re, next_core by auto. rewrite Ee. fold a'.
    rewrite Rd, next_down, down_dst, rt_here by auto using leaf_tree. auto.
Qed.
End F.
