From Coq Require Import List ZArith Arith Bool Lia Relations.
From Verif Require Import TorusModel NetModel HcModel TorusSpec NetSpec TorusProof TorusRoute NetProof HcProof.
Import ListNotations.

(** Random coordinates are what x_randomNumber, y_randomNumber, z_randomNumber can return. *)
Definition draws_ok (x y z : nat) (dec : nat -> phdr -> decision) : Prop :=
  forall my h, let c := switch_coords [x; y; z] my in
    (2 <= x -> d_x (dec my h) < x /\ d_x (dec my h) <> nth 0 c 0) /\
    (2 <= y -> d_y (dec my h) < y /\ d_y (dec my h) <> nth 1 c 0) /\
    (2 <= z -> d_z (dec my h) < z /\ d_z (dec my h) <> nth 2 c 0).

Lemma bits_small : forall n v, v < 2 ^ n -> bits n v = v.
Proof. intros. unfold bits. apply Nat.mod_small; auto. Qed.

Section P.
Variables (x y z conc nid : nat) (dec : nat -> phdr -> decision).
Let dims := [x; y; z].
Let t := nid / conc.
Let ej := nid mod conc + (x + y + z).
Hypothesis Hx : 0 < x <= 64.
Hypothesis Hy : 0 < y <= 64.
Hypothesis Hz : 0 < z <= 64.
Hypothesis T : t < prod dims.
Hypothesis Hej : ej < 2 ^ 16.
Hypothesis HD : draws_ok x y z dec.
Let next := far_end (hc_outports dims) (prod dims).
Let route := par_route x y z conc nid dec.

Lemma P3 : pos_dims dims.
Proof. repeat constructor; lia. Qed.
Lemma sc : forall s, switch_coords dims s = [coord dims 0 s; coord dims 1 s; coord dims 2 s].
Proof. intros. rewrite switch_coords_eq by apply P3. reflexivity. Qed.
Lemma c0 : forall s, coord dims 0 s < x. Proof. intros. apply (coord_lt' dims 0 s P3). simpl; lia. Qed.
Lemma c1 : forall s, coord dims 1 s < y. Proof. intros. apply (coord_lt' dims 1 s P3). simpl; lia. Qed.
Lemma c2 : forall s, coord dims 2 s < z. Proof. intros. apply (coord_lt' dims 2 s P3). simpl; lia. Qed.
Definition dst (s u : nat) := sumd ham dims s u.
Lemma dst3 : forall s u, dst s u = (if coord dims 0 s =? coord dims 0 u then 0 else 1)
   + (if coord dims 1 s =? coord dims 1 u then 0 else 1) + (if coord dims 2 s =? coord dims 2 u then 0 else 1).
Proof. intros. unfold dst. simpl. unfold ham, coord. simpl. lia. Qed.
Lemma p0 : forall v, v = hc_port dims 0 v. Proof. reflexivity. Qed.
Lemma p1 : forall v, v + x = hc_port dims 1 v. Proof. intros. unfold hc_port, dim_to_outport. simpl. lia. Qed.
Lemma p2 : forall v, v + x + y = hc_port dims 2 v. Proof. intros. unfold hc_port, dim_to_outport. simpl. lia. Qed.

Lemma step_to : forall s u j, s < prod dims -> j < 3 -> coord dims j s <> coord dims j u ->
  exists s', next s (hc_port dims j (coord dims j u)) = Some s' /\ s' < prod dims /\ dst s' u + 1 = dst s u.
Proof.
  intros. assert (Hv : coord dims j u < nth j dims 0) by (apply coord_lt'; auto using P3).
  exists (setc dims j (coord dims j u) s). split; [apply hc_next; auto using P3|].
  split; [apply setc_lt with (d := nth j dims 0); auto using P3, nth_dim|].
  pose proof (setc_sum ham dims j (nth j dims 0) (coord dims j u) s u (nth_dim dims j H0) P3 Hv).
  unfold ham in H2 at 2 4. rewrite Nat.eqb_refl in H2.
  destruct (Nat.eqb_spec (coord dims j s) (coord dims j u)); [congruence|]. unfold dst. lia.
Qed.
Lemma dst_zero : forall s u, s < prod dims -> u < prod dims -> dst s u = 0 -> s = u.
Proof. intros. eapply sumd_zero; eauto using P3. exact ham_zero. Qed.
Lemma dst_le3 : forall s u, dst s u <= 3.
Proof. intros. rewrite dst3. destruct (_ =? _), (_ =? _), (_ =? _); lia. Qed.

Definition hok (h : phdr) : Prop :=
  p_dx h = coord dims 0 t /\ p_dy h = coord dims 1 t /\ p_dz h = coord dims 2 t /\ p_ej h = ej.

Lemma final_char : forall s h, hok h -> s < prod dims ->
  (s = t /\ par_final x y (coord dims 0 s) (coord dims 1 s) (coord dims 2 s) h = Eject ej) \/
  exists j, j < 3 /\ coord dims j s <> coord dims j t /\
    par_final x y (coord dims 0 s) (coord dims 1 s) (coord dims 2 s) h = par_send (hc_port dims j (coord dims j t)) h.
Proof.
  intros s h (E0 & E1 & E2 & E3) Hs. unfold par_final. rewrite E0, E1, E2, E3.
  destruct (Nat.eqb_spec (coord dims 0 t) (coord dims 0 s)); cbn [negb].
  2:{ right. exists 0. repeat split; auto. }
  destruct (Nat.eqb_spec (coord dims 1 t) (coord dims 1 s)); cbn [negb].
  2:{ right. exists 1. rewrite p1. repeat split; auto. }
  destruct (Nat.eqb_spec (coord dims 2 t) (coord dims 2 s)); cbn [negb].
  2:{ right. exists 2. rewrite p2. repeat split; auto. }
  left. split; auto. apply dst_zero; auto. rewrite dst3, e, e0, e1, !Nat.eqb_refl. auto.
Qed.

Definition nh (h : phdr) := PHdr (p_stage h) (bits 3 (p_nhops h + 1)) (p_dx h) (p_dy h) (p_dz h) (p_ej h) (p_dest h).
Lemma send_eq : forall p h, par_send p h = Forward p (p_nhops h) (nh h). Proof. reflexivity. Qed.
Lemma nh_nhops : forall h, p_nhops h < 7 -> p_nhops (nh h) = p_nhops h + 1.
Proof. intros. unfold nh. cbn [p_nhops]. apply bits_small. simpl. lia. Qed.

Lemma route_final : forall s h, p_stage h = PFinal ->
  route s h = par_final x y (coord dims 0 s) (coord dims 1 s) (coord dims 2 s) h.
Proof. intros. unfold route, par_route. rewrite H. change [x; y; z] with dims. rewrite sc. reflexivity. Qed.

Lemma walk_fin : forall k s h, s < prod dims -> p_stage h = PFinal -> hok h -> dst s t = k ->
  p_nhops h + k <= 6 ->
  exists tr, gwalk next route (S k) s h = Some (tr, t, ej) /\ length tr = k /\
    map ch_vc tr = seq (p_nhops h) k.
Proof.
  induction k; intros.
  - apply dst_zero in H2; auto. subst s. exists []. cbn [gwalk]. rewrite route_final by auto.
    destruct (final_char t h H1 T) as [[_ ->]|(j & _ & C & _)]; [auto|congruence].
  - destruct (final_char s h H1 H) as [[E _]|(j & Hj & Hne & Hf)].
    { subst s. rewrite dst3, !Nat.eqb_refl in H2. discriminate. }
    destruct (step_to s t j H Hj Hne) as (s' & Hn & Hs' & Hd).
    destruct (IHk s' (nh h) Hs' H0 H1 ltac:(lia)) as (tr & Hw & Hl & Hv).
    { rewrite nh_nhops; lia. }
    exists (Chan s (hc_port dims j (coord dims j t)) (p_nhops h) :: tr).
    remember (S k) as m. cbn [gwalk]. rewrite route_final by auto. rewrite Hf, send_eq, Hn, Hw.
    split; [auto|]. subst m. split; [simpl; lia|]. cbn [map ch_vc seq]. rewrite Hv, nh_nhops, Nat.add_1_r by lia. auto.
Qed.

Lemma valiant_char : forall s h, p_stage h = PValiant -> hok h -> s < prod dims -> p_dest h < prod dims ->
  (s = p_dest h /\ route s h = par_final x y (coord dims 0 s) (coord dims 1 s) (coord dims 2 s)
       (PHdr PFinal (p_nhops h) (p_dx h) (p_dy h) (p_dz h) (p_ej h) (p_dest h))) \/
  exists j, j < 3 /\ coord dims j s <> coord dims j (p_dest h) /\
    route s h = par_send (hc_port dims j (coord dims j (p_dest h))) h.
Proof.
  intros. unfold route, par_route. rewrite H. change [x; y; z] with dims. rewrite !sc. cbn [nth].
  destruct (Nat.eqb_spec s (p_dest h)) as [E|E]; cbn [negb]; [left; auto|right].
  destruct (Nat.eqb_spec (coord dims 0 (p_dest h)) (coord dims 0 s)); cbn [negb].
  2:{ exists 0. repeat split; auto. }
  destruct (Nat.eqb_spec (coord dims 1 (p_dest h)) (coord dims 1 s)); cbn [negb].
  2:{ exists 1. rewrite p1. repeat split; auto. }
  exists 2. rewrite p2. repeat split; auto. intro. apply E. apply dst_zero; auto.
  rewrite dst3, e, e0, H3, !Nat.eqb_refl. auto.
Qed.

Lemma walk_val : forall k s h, s < prod dims -> p_stage h = PValiant -> hok h -> p_dest h < prod dims ->
  dst s (p_dest h) = k -> p_nhops h + k + dst (p_dest h) t <= 6 ->
  exists tr, gwalk next route (S (k + dst (p_dest h) t)) s h = Some (tr, t, ej) /\
    length tr = k + dst (p_dest h) t /\ map ch_vc tr = seq (p_nhops h) (length tr).
Proof.
  induction k; intros s h Hs Hst Hh Hd Hk Hn.
  - apply dst_zero in Hk; auto. subst s.
    destruct (valiant_char (p_dest h) h Hst Hh Hs Hd) as [[_ R]|(j & _ & C & _)]; [|congruence].
    set (h1 := PHdr PFinal (p_nhops h) (p_dx h) (p_dy h) (p_dz h) (p_ej h) (p_dest h)) in *.
    destruct (walk_fin (dst (p_dest h) t) (p_dest h) h1 Hs eq_refl Hh eq_refl ltac:(simpl; lia)) as (tr & Hw & Hl & Hv).
    exists tr. rewrite Nat.add_0_l. split; [|split; auto].
    + cbn [gwalk] in Hw |- *. rewrite route_final in Hw by auto. rewrite R. exact Hw.
    + rewrite Hl. exact Hv.
  - destruct (valiant_char s h Hst Hh Hs Hd) as [[E _]|(j & Hj & Hne & R)].
    { rewrite <- E in Hk. rewrite dst3, !Nat.eqb_refl in Hk. discriminate. }
    destruct (step_to s (p_dest h) j Hs Hj Hne) as (s' & Hnx & Hs' & Hdd).
    destruct (IHk s' (nh h) Hs' Hst Hh Hd ltac:(simpl; lia)) as (tr & Hw & Hl & Hv).
    { rewrite nh_nhops by lia. simpl. lia. }
    change (p_dest (nh h)) with (p_dest h) in *.
    exists (Chan s (hc_port dims j (coord dims j (p_dest h))) (p_nhops h) :: tr).
    replace (S k + dst (p_dest h) t) with (S (k + dst (p_dest h) t)) by lia.
    remember (S (k + dst (p_dest h) t)) as m. cbn [gwalk]. rewrite R, send_eq, Hnx, Hw.
    split; [auto|]. split; [simpl; lia|]. cbn [length map ch_vc seq].
    rewrite Hv, nh_nhops, Nat.add_1_r by lia. auto.
Qed.

Hypothesis Hsz : prod dims <= 2 ^ 24.

(** the intermediate switch drawn at [s] *)
Lemma minimal_char : forall s h dc, hok h -> s < prod dims -> 
  (forall v, v = dc -> (2 <= x -> d_x v < x /\ d_x v <> coord dims 0 s) /\
                       (2 <= y -> d_y v < y /\ d_y v <> coord dims 1 s) /\
                       (2 <= z -> d_z v < z /\ d_z v <> coord dims 2 s)) ->
  (s = t /\ par_minimal x y z s (coord dims 0 s) (coord dims 1 s) (coord dims 2 s) dc h = Eject ej) \/
  exists j inter, j < 3 /\ coord dims j s <> coord dims j t /\ inter < prod dims /\
    coord dims j s <> coord dims j inter /\ dst s inter = dst s t /\ dst inter t <= dst s t /\
    par_minimal x y z s (coord dims 0 s) (coord dims 1 s) (coord dims 2 s) dc h =
      if d_min dc then par_send (hc_port dims j (coord dims j t)) h
      else par_send (hc_port dims j (coord dims j inter))
             (PHdr PValiant (p_nhops h) (p_dx h) (p_dy h) (p_dz h) (p_ej h) inter).
Proof.
  intros s h dc (E0 & E1 & E2 & E3) Hs Hdc. unfold par_minimal. rewrite E0, E1, E2, E3.
  specialize (Hdc dc eq_refl). destruct Hdc as (D0 & D1 & D2).
  pose proof (c0 s) as S0. pose proof (c1 s) as S1. pose proof (c2 s) as S2.
  pose proof (c0 t) as T0. pose proof (c1 t) as T1. pose proof (c2 t) as T2.
  set (cx := if coord dims 0 s =? coord dims 0 t then coord dims 0 s else d_x dc).
  set (cy := if coord dims 1 s =? coord dims 1 t then coord dims 1 s else d_y dc).
  set (cz := if coord dims 2 s =? coord dims 2 t then coord dims 2 s else d_z dc).
  assert (Hcx : cx < x /\ (coord dims 0 s =? cx) = (coord dims 0 s =? coord dims 0 t)).
  { unfold cx. destruct (Nat.eqb_spec (coord dims 0 s) (coord dims 0 t)); [rewrite Nat.eqb_refl; auto|].
    destruct D0; [lia|]. split; auto. apply Nat.eqb_neq. auto. }
  assert (Hcy : cy < y /\ (coord dims 1 s =? cy) = (coord dims 1 s =? coord dims 1 t)).
  { unfold cy. destruct (Nat.eqb_spec (coord dims 1 s) (coord dims 1 t)); [rewrite Nat.eqb_refl; auto|].
    destruct D1; [lia|]. split; auto. apply Nat.eqb_neq. auto. }
  assert (Hcz : cz < z /\ (coord dims 2 s =? cz) = (coord dims 2 s =? coord dims 2 t)).
  { unfold cz. destruct (Nat.eqb_spec (coord dims 2 s) (coord dims 2 t)); [rewrite Nat.eqb_refl; auto|].
    destruct D2; [lia|]. split; auto. apply Nat.eqb_neq. auto. }
  set (inter := switch_addr dims [cx; cy; cz]).
  assert (Hlc : legal_coords dims [cx; cy; cz]) by (repeat constructor; tauto).
  assert (Hil : inter < prod dims) by (unfold inter; rewrite switch_addr_eq; apply addr_lt; auto).
  assert (Hco : coords dims inter = [cx; cy; cz]).
  { unfold inter. rewrite switch_addr_eq. apply coords_addr; auto. }
  assert (I0 : coord dims 0 inter = cx) by (unfold coord; rewrite Hco; auto).
  assert (I1 : coord dims 1 inter = cy) by (unfold coord; rewrite Hco; auto).
  assert (I2 : coord dims 2 inter = cz) by (unfold coord; rewrite Hco; auto).
  assert (A : dst s inter = dst s t).
  { rewrite !dst3, I0, I1, I2. destruct Hcx as [_ ->], Hcy as [_ ->], Hcz as [_ ->]. auto. }
  assert (B : dst inter t <= dst s t).
  { rewrite !dst3, I0, I1, I2. unfold cx, cy, cz.
    destruct (Nat.eqb_spec (coord dims 0 s) (coord dims 0 t)) as [F0|F0];
    destruct (Nat.eqb_spec (coord dims 1 s) (coord dims 1 t)) as [F1|F1];
    destruct (Nat.eqb_spec (coord dims 2 s) (coord dims 2 t)) as [F2|F2];
    rewrite ?F0, ?F1, ?F2, ?Nat.eqb_refl;
    repeat match goal with |- context [if ?b then 0 else 1] => destruct b end; lia. }
  change [x; y; z] with dims. fold inter. rewrite (bits_small 24 inter) by lia.
  destruct Hcx as [_ Hcx], Hcy as [_ Hcy], Hcz as [_ Hcz].
  destruct (Nat.eqb_spec (coord dims 0 s) (coord dims 0 t)) as [F0|F0]; cbn [negb].
  2:{ right. exists 0, inter. rewrite I0. repeat split; auto. apply Nat.eqb_neq; auto. }
  destruct (Nat.eqb_spec (coord dims 1 s) (coord dims 1 t)) as [F1|F1]; cbn [negb].
  2:{ right. exists 1, inter. rewrite I1, !p1. repeat split; auto. apply Nat.eqb_neq; auto. }
  destruct (Nat.eqb_spec (coord dims 2 s) (coord dims 2 t)) as [F2|F2]; cbn [negb].
  2:{ right. exists 2, inter. rewrite I2, !p2. repeat split; auto. apply Nat.eqb_neq; auto. }
  left. split; auto. apply dst_zero; auto. rewrite dst3, F0, F1, F2, !Nat.eqb_refl. auto.
Qed.

Lemma walk_min_step : forall k s h dc, s < prod dims -> hok h -> p_stage h = PMinimal ->
  (forall s' h', s' < prod dims -> p_stage h' = PMinimal -> hok h' -> dst s' t < k -> p_nhops h' + dst s' t <= 3 ->
     exists tr, gwalk next route 7 s' h' = Some (tr, t, ej) /\ p_nhops h' + length tr <= 6 /\
       map ch_vc tr = seq (p_nhops h') (length tr)) ->
  (exists h', dc = dec s h') ->
  dst s t = k -> p_nhops h + k <= 3 ->
  exists tr, match par_minimal x y z s (coord dims 0 s) (coord dims 1 s) (coord dims 2 s) dc h with
      | Eject p => Some ([], s, p)
      | Abort => None
      | Forward p vc h' =>
          match next s p with
          | None => None
          | Some s' =>
              match gwalk next route 7 s' h' with
              | Some (tr, e, p') => Some (Chan s p vc :: tr, e, p')
              | None => None
              end
          end
      end = Some (tr, t, ej) /\ p_nhops h + length tr <= 6 /\ map ch_vc tr = seq (p_nhops h) (length tr).
Proof.
  intros k s h dc Hs Hh Hst IH (h0 & Edc) Hk Hn.
  destruct (minimal_char s h dc Hh Hs) as [[E R]|(j & inter & Hj & Hne & Hil & Hni & HA & HB & R)].
  { intros v ->. subst dc. pose proof (HD s h0) as Q. cbv zeta in Q. fold dims in Q. rewrite sc in Q. exact Q. }
  - rewrite R. exists []. subst s. repeat split; auto. simpl. lia.
  - rewrite R. destruct (d_min dc).
    + destruct (step_to s t j Hs Hj Hne) as (s' & Hnx & Hs' & Hdd).
      destruct (IH s' (nh h) Hs' Hst Hh ltac:(lia)) as (tr & Hw & Hl & Hv).
      { rewrite nh_nhops; lia. }
      rewrite nh_nhops in Hl, Hv by lia.
      exists (Chan s (hc_port dims j (coord dims j t)) (p_nhops h) :: tr).
      rewrite send_eq, Hnx, Hw. split; auto. split; [simpl; lia|].
      cbn [length map ch_vc seq]. rewrite Hv, Nat.add_1_r. auto.
    + destruct (step_to s inter j Hs Hj Hni) as (s' & Hnx & Hs' & Hdd).
      set (hv := PHdr PValiant (p_nhops h) (p_dx h) (p_dy h) (p_dz h) (p_ej h) inter) in *.
      assert (E1 : p_nhops hv < 7) by (simpl; lia).
      destruct (walk_val (dst s' inter) s' (nh hv) Hs' eq_refl Hh Hil eq_refl) as (tr & Hw & Hl & Hv).
      { rewrite nh_nhops by auto. cbn [p_dest nh hv p_nhops]. lia. }
      cbn [p_dest nh hv] in Hw, Hl.
      rewrite nh_nhops in Hv by auto. cbn [p_nhops hv] in Hv.
      exists (Chan s (hc_port dims j (coord dims j inter)) (p_nhops h) :: tr).
      rewrite send_eq, Hnx. cbn [p_nhops hv].
      rewrite (gwalk_more _ _ _ _ 7 _ _ _ Hw) by lia.
      split; auto. split; [simpl; lia|].
      cbn [length map ch_vc seq]. rewrite Hv, Nat.add_1_r. auto.
Qed.

Lemma gwalk_len : forall H nx (rt : nat -> H -> outcome H) f s h tr e p,
  gwalk nx rt f s h = Some (tr, e, p) -> gwalk nx rt (S (length tr)) s h = Some (tr, e, p).
Proof.
  induction f; intros; [discriminate|]. cbn [gwalk] in H0.
  destruct (rt s h) eqn:R; try discriminate.
  - injection H0; intros; subst. cbn [gwalk length]. rewrite R. auto.
  - destruct (nx s port) eqn:N; try discriminate.
    destruct (gwalk nx rt f n h0) as [[[tr' e'] p']|] eqn:W; try discriminate.
    injection H0; intros; subst. apply IHf in W.
    cbn [length]. remember (S (length tr')) as m. cbn [gwalk]. rewrite R, N, W. auto.
Qed.

Lemma route_min : forall s h, p_stage h = PMinimal ->
  route s h = par_minimal x y z s (coord dims 0 s) (coord dims 1 s) (coord dims 2 s) (dec s h) h.
Proof. intros. unfold route, par_route. rewrite H. change [x; y; z] with dims. rewrite sc. reflexivity. Qed.

Lemma walk_min : forall k s h, s < prod dims -> p_stage h = PMinimal -> hok h -> dst s t < k ->
  p_nhops h + dst s t <= 3 ->
  exists tr, gwalk next route 7 s h = Some (tr, t, ej) /\ p_nhops h + length tr <= 6 /\
    map ch_vc tr = seq (p_nhops h) (length tr).
Proof.
  induction k; intros s h Hs Hst Hh Hk Hn; [lia|].
  destruct (walk_min_step (dst s t) s h (dec s h) Hs Hh Hst) as (tr & Hw & Hl & Hv); auto.
  - intros. apply IHk; auto. lia.
  - eauto.
  - exists tr. split; [|auto].
    rewrite <- route_min in Hw by auto.
    assert (E : gwalk next route 8 s h = Some (tr, t, ej)) by exact Hw.
    apply gwalk_len in E. apply (gwalk_more _ _ _ _ 7) in E; auto. lia.
Qed.

Lemma par_delivers : forall s, s < prod dims ->
  exists tr, gwalk next route 7 s phdr0 = Some (tr, t, ej) /\ length tr <= 6 /\
    map ch_vc tr = seq 0 (length tr).
Proof.
  intros s Hs. destruct (Nat.eq_dec t s) as [E|E].
  - exists []. cbn [gwalk]. unfold route, par_route. cbn [p_stage phdr0]. fold t. rewrite E, Nat.eqb_refl.
    cbn [p_ej]. fold ej. rewrite bits_small by auto. simpl. auto with arith.
  - set (h1 := PHdr PMinimal 0 (coord dims 0 t) (coord dims 1 t) (coord dims 2 t) ej 0).
    assert (R : route s phdr0 = par_minimal x y z s (coord dims 0 s) (coord dims 1 s) (coord dims 2 s) (dec s h1) h1).
    { unfold route, par_route. cbn [p_stage phdr0 p_nhops p_dest]. fold t. change [x; y; z] with dims. rewrite !sc.
      cbn [nth]. fold ej. rewrite (bits_small 16) by auto.
      rewrite !bits_small by (pose proof (c0 t); pose proof (c1 t); pose proof (c2 t); simpl; lia).
      destruct (Nat.eqb_spec t s); [congruence|]. reflexivity. }
    destruct (walk_min_step (dst s t) s h1 (dec s h1) Hs) as (tr & Hw & Hl & Hv); auto.
    + repeat split.
    + intros. eapply walk_min; eauto.
    + eauto.
    + simpl. apply dst_le3.
    + exists tr. rewrite <- R in Hw. cbn [p_nhops h1] in Hl, Hv. split; auto.
      assert (E8 : gwalk next route 8 s phdr0 = Some (tr, t, ej)) by exact Hw.
      apply gwalk_len in E8. apply (gwalk_more _ _ _ _ 7) in E8; auto. lia.
Qed.
End P.

(** consecutive vcs increase *)
Lemma seq_consecutive : forall (l : list chan) k a b, map ch_vc l = seq k (length l) -> consecutive l a b ->
  ch_vc a < ch_vc b.
Proof.
  intros l k a b H (pre & post & ->).
  assert (Ha : nth (length pre) (map ch_vc (pre ++ a :: b :: post)) 0 = ch_vc a).
  { rewrite map_app, app_nth2, map_length, Nat.sub_diag by (rewrite map_length; lia). reflexivity. }
  assert (Hb : nth (S (length pre)) (map ch_vc (pre ++ a :: b :: post)) 0 = ch_vc b).
  { rewrite map_app, app_nth2, map_length, Nat.sub_succ_l, Nat.sub_diag by (rewrite ?map_length; lia). reflexivity. }
  rewrite H in Ha, Hb. rewrite app_length in Ha, Hb. cbn [length] in Ha, Hb.
  rewrite seq_nth in Ha, Hb by lia. lia.
Qed.
