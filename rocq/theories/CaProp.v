(** C23, C92, C93: cascade wiring and routing. *)
From Coq Require Import List ZArith Arith Bool Lia.
From Verif Require Import TorusModel NetModel CaModel.
Import ListNotations.

Definition shape_ok (t : shape) : Prop := 1 <= s_x t /\ 1 <= s_y t /\ 1 <= s_g t.

(** ** Coordinates *)

Lemma coords_uid : forall t x y g, x < s_x t -> y < s_y t ->
  cx t (cuid t x y g) = x /\ cy t (cuid t x y g) = y /\ cg t (cuid t x y g) = g.
Proof.
  intros t x y g Hx Hy. unfold cx, cy, cg, cuid.
  assert (E : g * (s_x t * s_y t) + y * s_x t + x = x + (g * s_y t + y) * s_x t) by nia.
  split; [|split].
  - rewrite E, Nat.mod_add by lia. apply Nat.mod_small; lia.
  - rewrite E, Nat.div_add, (Nat.div_small x) by lia. cbn [plus].
    rewrite Nat.add_comm, Nat.mod_add by lia. apply Nat.mod_small; lia.
  - replace (g * (s_x t * s_y t) + y * s_x t + x) with ((y * s_x t + x) + g * (s_x t * s_y t)) by lia.
    rewrite Nat.div_add by nia. rewrite Nat.div_small by nia. lia.
Qed.

Lemma uid_coords : forall t s, shape_ok t -> s < cas_switches t ->
  cx t s < s_x t /\ cy t s < s_y t /\ cg t s < s_g t /\ cuid t (cx t s) (cy t s) (cg t s) = s.
Proof.
  intros t s (Hx & Hy & Hg) H. unfold cx, cy, cg, cuid, cas_switches in *.
  split; [apply Nat.mod_upper_bound; lia|]. split; [apply Nat.mod_upper_bound; lia|].
  split; [apply Nat.div_lt_upper_bound; nia|].
  rewrite <- Nat.div_div by lia.
  pose proof (Nat.div_mod s (s_x t) ltac:(lia)). pose proof (Nat.div_mod (s / s_x t) (s_y t) ltac:(lia)) as Q.
  transitivity (s_x t * (s_y t * (s / s_x t / s_y t) + (s / s_x t) mod s_y t) + s mod s_x t); [ring|].
  rewrite <- Q. lia.
Qed.

Lemma uid_lt : forall t x y g, x < s_x t -> y < s_y t -> g < s_g t -> cuid t x y g < cas_switches t.
Proof. intros t x y g Hx Hy Hg. unfold cuid, cas_switches.
  assert (y * s_x t + x < s_x t * s_y t) by nia. assert (S g * (s_x t * s_y t) <= s_g t * (s_x t * s_y t)) by (apply Nat.mul_le_mono_r; lia).
  cbn [Nat.mul] in *. lia.
Qed.

(** ** Cables *)

Lemma outports_in : forall t src c, In c (cas_outports t src) <->
  (exists x, x < s_x t /\ x <> cx t src /\
     c = Conn src (Z.of_nat (cuid t x (cy t src) (cg t src))) (x_port t x) (x_port t (cx t src))) \/
  (exists y, y < s_y t /\ y <> cy t src /\
     c = Conn src (Z.of_nat (cuid t (cx t src) y (cg t src))) (y_port t y) (y_port t (cy t src))) \/
  (exists d, d < s_con t /\ dir_to_group t (cx t src) (cy t src) (cg t src) d <> cg t src /\
     c = Conn src (Z.of_nat (cuid t (cx t src) (cy t src) (dir_to_group t (cx t src) (cy t src) (cg t src) d)))
              (g_port t (dir_to_group t (cx t src) (cy t src) (cg t src) d)) (g_port t (cg t src))).
Proof.
  intros t src c. unfold cas_outports. rewrite !in_app_iff, !in_flat_map. split.
  - intros [(x & Hx & H)|[(y & Hy & H)|(d & Hd & H)]].
    + left. exists x. apply in_seq in Hx. destruct (Nat.eqb_spec x (cx t src)); [destruct H|].
      destruct H as [<-|[]]. split; [lia|auto].
    + right; left. exists y. apply in_seq in Hy. destruct (Nat.eqb_spec y (cy t src)); [destruct H|].
      destruct H as [<-|[]]. split; [lia|auto].
    + right; right. exists d. apply in_seq in Hd. cbn zeta in H. destruct (Nat.eqb_spec (dir_to_group t (cx t src) (cy t src) (cg t src) d) (cg t src)); [destruct H|].
      destruct H as [<-|[]]. split; [lia|auto].
  - intros [(x & Hx & N & ->)|[(y & Hy & N & ->)|(d & Hd & N & ->)]].
    + left. exists x. split; [apply in_seq; lia|]. destruct (Nat.eqb_spec x (cx t src)); [contradiction|left; reflexivity].
    + right; left. exists y. split; [apply in_seq; lia|]. destruct (Nat.eqb_spec y (cy t src)); [contradiction|left; reflexivity].
    + right; right. exists d. split; [apply in_seq; lia|]. cbn zeta.
      destruct (Nat.eqb_spec (dir_to_group t (cx t src) (cy t src) (cg t src) d) (cg t src)); [contradiction|left; reflexivity].
Qed.

Lemma far_some : forall conns n s p e, e < n ->
  (exists c, In c (conns s) /\ c_outport c = p) ->
  (forall c, In c (conns s) -> c_outport c = p -> c_dst c = Z.of_nat e) ->
  far_end conns n s p = Some e.
Proof.
  intros conns n s p e He (c & Hc & Hp) U. unfold far_end.
  destruct (find (fun c0 => c_outport c0 =? p) (conns s)) as [c'|] eqn:F.
  - apply find_some in F as [F1 F2]. apply Nat.eqb_eq in F2. rewrite (U c' F1 F2).
    replace ((0 <=? Z.of_nat e) && (Z.of_nat e <? Z.of_nat n))%Z with true
      by (symmetry; apply andb_true_iff; split; [apply Z.leb_le|apply Z.ltb_lt]; lia).
    rewrite Nat2Z.id. reflexivity.
  - pose proof (find_none _ _ F c Hc) as X. cbn in X. rewrite Hp, Nat.eqb_refl in X. discriminate.
Qed.

Lemma far_none : forall conns n s p, (forall c, In c (conns s) -> c_outport c <> p) -> far_end conns n s p = None.
Proof.
  intros conns n s p U. unfold far_end. destruct (find (fun c0 => c_outport c0 =? p) (conns s)) as [c'|] eqn:F; [|reflexivity].
  apply find_some in F as [F1 F2]. apply Nat.eqb_eq in F2. exfalso. exact (U c' F1 F2).
Qed.

Lemma far_x : forall t s x, shape_ok t -> s < cas_switches t -> x < s_x t -> x <> cx t s ->
  far_end (cas_outports t) (cas_switches t) s (x_port t x) = Some (cuid t x (cy t s) (cg t s)).
Proof.
  intros t s x OK Hs Hx N. destruct (uid_coords t s OK Hs) as (A & B & C & _).
  apply far_some; [apply uid_lt; assumption| |].
  - eexists. split; [apply outports_in; left; exists x; auto|reflexivity].
  - intros c Hc Hp. apply outports_in in Hc as [(x' & Hx' & N' & ->)|[(y' & Hy' & N' & ->)|(d & Hd & N' & ->)]];
      cbn in Hp |- *; unfold x_port, y_port, g_port in Hp; [subst; reflexivity|lia|lia].
Qed.

Lemma far_y : forall t s y, shape_ok t -> s < cas_switches t -> y < s_y t -> y <> cy t s ->
  far_end (cas_outports t) (cas_switches t) s (y_port t y) = Some (cuid t (cx t s) y (cg t s)).
Proof.
  intros t s y OK Hs Hy N. destruct (uid_coords t s OK Hs) as (A & B & C & _).
  apply far_some; [apply uid_lt; assumption| |].
  - eexists. split; [apply outports_in; right; left; exists y; auto|reflexivity].
  - intros c Hc Hp. apply outports_in in Hc as [(x' & Hx' & N' & ->)|[(y' & Hy' & N' & ->)|(d & Hd & N' & ->)]];
      cbn in Hp |- *; unfold x_port, y_port, g_port in Hp; [lia| |lia].
    assert (y' = y) by lia. subst. reflexivity.
Qed.

Lemma far_g_none : forall t s g, (forall d, d < s_con t -> dir_to_group t (cx t s) (cy t s) (cg t s) d <> g) ->
  (exists x, x < s_x t) ->
  far_end (cas_outports t) (cas_switches t) s (g_port t g) = None.
Proof.
  intros t s g U _. apply far_none.
  intros c Hc Hp. apply outports_in in Hc as [(x' & Hx' & N' & ->)|[(y' & Hy' & N' & ->)|(d & Hd & N' & ->)]];
      cbn in Hp; unfold x_port, y_port, g_port in Hp; [lia|lia|]. apply (U d Hd). lia.
Qed.

Lemma dir_lt : forall t x y g d, 1 <= s_g t -> dir_to_group t x y g d < s_g t.
Proof.
  intros t x y g d H. unfold dir_to_group. cbn zeta. destruct (s_con t / 2 <=? d).
  - pose proof (Z.mod_pos_bound (Z.of_nat g - Z.of_nat ((x * s_y t + y) * (s_con t / 2)) - Z.of_nat (d - s_con t / 2)) (Z.of_nat (s_g t)) ltac:(lia)). lia.
  - apply Nat.mod_upper_bound. lia.
Qed.

(** ** C23: the router believes in cables that do not exist, in every cascade *)

Lemma xy_loop_hit : forall t stride k n theg, 1 <= s_g t -> k < n ->
  xy_loop t stride n theg ((theg + k * stride) mod s_g t) = true.
Proof.
  intros t stride k. induction k as [|k IH]; intros [|n] theg G H; try lia; cbn [xy_loop].
  - rewrite Nat.mul_0_l, Nat.add_0_r, Nat.eqb_refl. reflexivity.
  - destruct (theg mod s_g t =? (theg + S k * stride) mod s_g t); [reflexivity|].
    assert (E : (theg + S k * stride) mod s_g t = (theg mod s_g t + stride + k * stride) mod s_g t).
    { replace (theg mod s_g t + stride + k * stride) with (theg mod s_g t + S k * stride) by lia.
      rewrite Nat.add_mod_idemp_l by lia. reflexivity. }
    rewrite E. apply IH; lia.
Qed.

(** In every cascade with at least two groups there are two switches such that the minimal
    router, asked at the first for the second, either throws (no path) or sends the packet out
    of a port without a cable, whatever the random numbers. *)
Theorem cascade_routing_refuted : forall x y g con,
  1 <= x -> 1 <= y -> 2 <= g -> 1 <= con -> let t := cas_shape x y g con in
  exists src dst, src < cas_switches t /\ dst < cas_switches t /\ src <> dst /\
    forall xs ys, match cas_minimal_route t xs ys src dst with
                  | None => True
                  | Some p => far_end (cas_outports t) (cas_switches t) src p = None
                  end.
Proof.
  intros x y g con Hx Hy Hg Hc t.
  assert (Hgc : 1 <= s_con t < s_g t).
  { subst t. unfold cas_shape. cbn. destruct (Nat.leb_spec g con); lia. }
  assert (EX : s_x t = x) by reflexivity. assert (EY : s_y t = y) by reflexivity. assert (EG : s_g t = g) by reflexivity.
  clearbody t. destruct (Nat.eq_dec (s_con t) 1) as [C1|C1].
  - (* one connection: no cables between groups *)
    assert (NC : forall s, cg t s < g -> forall d, d < s_con t -> dir_to_group t (cx t s) (cy t s) (cg t s) d = cg t s).
    { intros s Hs d Hd. unfold dir_to_group. rewrite C1 in *. cbn [Nat.div Nat.divmod fst]. cbn zeta.
      change (1 / 2) with 0. assert (d = 0) as -> by lia. cbn [Nat.leb]. rewrite Nat.mul_0_r. cbn [Z.of_nat Nat.sub].
      rewrite !Z.sub_0_r, EG, Z.mod_small by lia. apply Nat2Z.id. }
    destruct (Nat.eq_dec (x * y) 1) as [XY|XY].
    + exists 0, 1. assert (x = 1 /\ y = 1) as [-> ->] by nia. unfold cas_switches. rewrite EX, EY, EG.
      split; [lia|split; [lia|split; [lia|]]]. intros xs ys. unfold cas_minimal_route.
      replace (cg t 0) with 0 by (unfold cg; rewrite EX, EY; reflexivity).
      replace (cg t 1) with 1 by (unfold cg; rewrite EX, EY; reflexivity). cbn [Nat.eqb negb].
      assert (NX : forall u v, xy_connected t u v 0 1 = false \/ u + v * s_x t > 0).
      { intros u v. destruct (Nat.eq_dec (u + v * s_x t) 0) as [E|]; [left|right; lia].
        unfold xy_connected. rewrite E, C1. cbn [xy_loop]. rewrite Nat.mod_0_l by lia. cbn [plus].
        rewrite Nat.mod_0_l by lia. reflexivity. }
      assert (M1 : forall k, k mod 1 = 0) by (intros k; apply Nat.mod_1_r).
      unfold path_to_group. replace (cx t 0) with 0 by (unfold cx; rewrite EX; reflexivity).
      replace (cy t 0) with 0 by (unfold cy; rewrite EX, EY; reflexivity).
      assert (N0 : xy_connected t 0 0 0 1 = false) by (destruct (NX 0 0); [assumption|lia]).
      rewrite N0. unfold find_x, find_y. rewrite EX, EY. cbn [seq map find]. rewrite !M1, N0.
      cbn [find_any]. unfold find_y. rewrite EY. cbn [seq map find]. rewrite M1, N0. exact I.
    + exists 1, (x * y + 1). unfold cas_switches. rewrite EX, EY, EG. split; [nia|split; [nia|split; [nia|]]].
      intros xs ys. assert (XY2 : x * y >= 2) by nia.
      assert (G1 : cg t 1 = 0) by (unfold cg; rewrite EX, EY; apply Nat.div_small; lia).
      assert (G2 : cg t (x * y + 1) = 1).
      { unfold cg. rewrite EX, EY. replace (x * y + 1) with (1 + 1 * (x * y)) by lia. rewrite Nat.div_add by lia.
        rewrite Nat.div_small by lia. reflexivity. }
      unfold cas_minimal_route. rewrite G1, G2. cbn [Nat.eqb negb].
      assert (ID : cx t 1 + cy t 1 * s_x t = 1).
      { unfold cx, cy. rewrite EX, EY. destruct (Nat.eq_dec x 1) as [->|NX].
        - rewrite Nat.mod_1_r, Nat.div_1_r. rewrite Nat.mod_small by lia. lia.
        - rewrite (Nat.mod_small 1 x), (Nat.div_small 1 x), Nat.mod_0_l by lia. lia. }
      assert (CC : xy_connected t (cx t 1) (cy t 1) 0 1 = true).
      { unfold xy_connected. rewrite ID, C1. cbn [xy_loop]. rewrite (Nat.mod_small 1) by lia. cbn [plus].
        rewrite (Nat.mod_small 1) by lia. reflexivity. }
      unfold path_to_group. rewrite CC. pose proof (far_g_none t 1 1) as FN. unfold cas_switches in FN. rewrite EX, EY, EG in FN.
      apply FN; [|exists 0; lia]. intros d Hd. rewrite NC by lia. lia.
  - (* at least two connections: from switch 0 *)
    set (half := s_con t / 2). set (stride := Nat.max 1 (s_g t / s_con t)).
    assert (HH : 1 <= half /\ half <= s_con t - half).
    { unfold half. pose proof (Nat.div_mod (s_con t) 2 ltac:(lia)). pose proof (Nat.mod_upper_bound (s_con t) 2 ltac:(lia)). lia. }
    assert (HS : 1 <= stride /\ s_con t * stride <= s_g t).
    { unfold stride. assert (1 <= s_g t / s_con t) by (apply Nat.div_le_lower_bound; lia).
      rewrite Nat.max_r by lia. split; [lia|]. apply Nat.mul_div_le. lia. }
    set (d := half * stride).
    assert (HD : half <= d /\ d + (s_con t - half) <= s_g t) by (unfold d; nia).
    exists 0, (d * (x * y)). unfold cas_switches. rewrite EX, EY, EG in *.
    assert (P0 : 1 <= x * y) by nia.
    split; [nia|split; [rewrite (Nat.mul_comm _ g); apply Nat.mul_lt_mono_pos_r; lia|split; [nia|]]]. intros xs ys.
    assert (Z0 : cg t 0 = 0 /\ cx t 0 = 0 /\ cy t 0 = 0).
    { unfold cg, cx, cy. rewrite EX, EY. rewrite Nat.div_0_l, Nat.mod_0_l, Nat.div_0_l, Nat.mod_0_l by nia. auto. }
    destruct Z0 as (Z1 & Z2 & Z3).
    assert (G2 : cg t (d * (x * y)) = d) by (unfold cg; rewrite EX, EY; apply Nat.div_mul; nia).
    unfold cas_minimal_route. rewrite Z1, Z2, Z3, G2. destruct (Nat.eqb_spec 0 d); [lia|]. cbn [negb].
    assert (CC : xy_connected t 0 0 0 d = true).
    { unfold xy_connected. fold stride. rewrite EG. cbn [plus Nat.mul]. rewrite Nat.mod_0_l by lia.
      pose proof (xy_loop_hit t stride half (s_con t) 0 ltac:(lia) ltac:(lia)) as XL. cbn [plus] in XL. fold d in XL.
      rewrite EG, (Nat.mod_small d) in XL by lia. exact XL. }
    unfold path_to_group. rewrite CC. pose proof (far_g_none t 0 d) as FN. unfold cas_switches in FN. rewrite EX, EY, EG in FN.
    apply FN; [|exists 0; lia]. intros k Hk. rewrite Z1, Z2, Z3. unfold dir_to_group. cbn zeta. fold half. cbn [Nat.mul plus].
    rewrite EG. destruct (Nat.leb_spec half k).
    + intros E. cbn [Z.of_nat] in E. rewrite Z.sub_0_r, Z.sub_0_l in E.
      destruct (Nat.eq_dec k half) as [->|NK].
      * rewrite Nat.sub_diag in E. change (- Z.of_nat 0)%Z with 0%Z in E. rewrite Z.mod_0_l in E by lia. change (Z.to_nat 0) with 0 in E. congruence.
      * assert (M : ((- Z.of_nat (k - half)) mod Z.of_nat g = Z.of_nat g - Z.of_nat (k - half))%Z).
        { symmetry. apply Z.mod_unique with (-1)%Z; lia. }
        rewrite M in E. lia.
    + rewrite Nat.mod_small by lia. lia.
Qed.
Print Assumptions cascade_routing_refuted.

(** ... so no router can deliver that packet. *)
Corollary cascade_delivery_refuted : forall x y g con conc,
  1 <= x -> 1 <= y -> 2 <= g -> 1 <= con -> 1 <= conc -> let t := cas_shape x y g con in
  exists src nid, src < cas_switches t /\ nid / conc < cas_switches t /\
    forall xs ys fuel,
      gwalk (far_end (cas_outports t) (cas_switches t)) (cas_route t conc nid xs ys) fuel src 0 = None.
Proof.
  intros x y g con conc Hx Hy Hg Hc Hk t.
  destruct (cascade_routing_refuted x y g con Hx Hy Hg Hc) as (src & dst & H1 & H2 & H3 & H4). fold t in H1, H2, H4.
  exists src, (dst * conc). rewrite Nat.div_mul by lia. split; [exact H1|split; [exact H2|]].
  intros xs ys [|fuel]; [reflexivity|]. cbn [gwalk]. unfold cas_route. rewrite Nat.div_mul by lia.
  destruct (Nat.eqb_spec dst src); [congruence|].
  specialize (H4 (xs src) (ys src)). destruct (cas_minimal_route t (xs src) (ys src) src dst); [|reflexivity].
  rewrite H4. reflexivity.
Qed.
Print Assumptions cascade_delivery_refuted.

(** Missing from the full claim: packets to another group (refuted above for every shape).
    Inside a group every packet is delivered over existing cables, on virtual channel 0, in
    exactly as many hops as minimalDistance says, and ejected at its node's port. *)
Theorem cascade_in_group_partial : forall t conc src nid xs ys,
  shape_ok t -> 1 <= conc -> src < cas_switches t -> nid / conc < cas_switches t -> cg t src = cg t (nid / conc) ->
  exists tr, gwalk (far_end (cas_outports t) (cas_switches t)) (cas_route t conc nid xs ys) 3 src 0
             = Some (tr, nid / conc, nid mod conc + (s_x t + s_y t + s_g t)) /\
    length tr = cas_distance t src (nid / conc) /\ (forall c, In c tr -> ch_vc c = 0).
Proof.
  intros t conc src nid xs ys OK Hk Hs Hd HG. set (dst := nid / conc) in *.
  destruct (uid_coords t src OK Hs) as (A1 & A2 & A3 & A4). destruct (uid_coords t dst OK Hd) as (B1 & B2 & B3 & B4).
  assert (Y : forall s fuel, s < cas_switches t -> cg t s = cg t dst -> cx t s = cx t dst ->
    exists tr, gwalk (far_end (cas_outports t) (cas_switches t)) (cas_route t conc nid xs ys) (S (S fuel)) s 0
             = Some (tr, dst, nid mod conc + (s_x t + s_y t + s_g t)) /\
       length tr = (if cy t s =? cy t dst then 0 else 1) /\ (forall c, In c tr -> ch_vc c = 0)).
  { intros s fuel Hs' E1 E2. destruct (uid_coords t s OK Hs') as (C1 & C2 & C3 & C4).
    cbn [gwalk]. unfold cas_route at 1. fold dst.
    destruct (Nat.eqb_spec (cy t s) (cy t dst)) as [E3|N3].
    - assert (E : dst = s) by congruence.
      rewrite (proj2 (Nat.eqb_eq dst s) E). exists []. subst s. split; [reflexivity|split; [reflexivity|intros ? []]].
    - destruct (Nat.eqb_spec dst s) as [E|N]; [congruence|].
      unfold cas_minimal_route. rewrite E1, E2, !Nat.eqb_refl. cbn [negb].
      destruct (Nat.eqb_spec (cy t s) (cy t dst)); [contradiction|]. cbn [negb].
      rewrite far_y by (auto; congruence).
      assert (E : cuid t (cx t s) (cy t dst) (cg t s) = dst) by (rewrite E1, E2; exact B4). rewrite E.
      assert (LT : s_x t + s_y t <=? y_port t (cy t dst) = false) by (apply Nat.leb_gt; unfold y_port; lia).
      rewrite LT. unfold cas_route at 1. fold dst. rewrite Nat.eqb_refl.
      eexists. split; [reflexivity|split; [reflexivity|]]. intros c [<-|[]]. reflexivity. }
  unfold cas_distance. rewrite HG, Nat.eqb_refl.
  destruct (Nat.eqb_spec (cx t src) (cx t dst)) as [E2|N2].
  - destruct (Y src 1 Hs HG E2) as (tr & T1 & T2 & T3). exists tr. cbn [plus]. auto.
  - cbn [gwalk]. unfold cas_route at 1. fold dst. destruct (Nat.eqb_spec dst src) as [E|N]; [congruence|].
    unfold cas_minimal_route. rewrite HG, Nat.eqb_refl. cbn [negb].
    destruct (Nat.eqb_spec (cx t src) (cx t dst)); [contradiction|]. cbn [negb].
    rewrite far_x by (auto; congruence).
    assert (LT : s_x t + s_y t <=? x_port t (cx t dst) = false) by (apply Nat.leb_gt; unfold x_port; lia).
    rewrite LT. set (s1 := cuid t (cx t dst) (cy t src) (cg t src)).
    destruct (coords_uid t (cx t dst) (cy t src) (cg t src) B1 A2) as (D1 & D2 & D3). fold s1 in D1, D2, D3.
    assert (H1 : s1 < cas_switches t) by (apply uid_lt; assumption).
    destruct (Y s1 0 H1) as (tr & T1 & T2 & T3); [congruence|congruence|].
    cbn [gwalk] in T1. rewrite T1. rewrite D2 in T2.
    eexists. split; [reflexivity|split; [cbn [length]; rewrite T2; reflexivity|]].
    intros c [<-|Hc]; [reflexivity|auto].
Qed.
Print Assumptions cascade_in_group_partial.

(** A 3 x 2 x 4 cascade with two connections, two nodes per switch. *)
Example cascade_in_group_example :
  gwalk (far_end (cas_outports (cas_shape 3 2 4 2)) 24) (cas_route (cas_shape 3 2 4 2) 2 23 (fun _ => 1) (fun _ _ => 0)) 3 6 0
  = Some ([Chan 6 2 0; Chan 8 4 0], 11, 10).
Proof. vm_compute. reflexivity. Qed.

(** ** The gateway the router looks for *)

(** How far (x, y) is, in in-group hops, from a switch that xy_connected_to_group accepts *)
Definition gate_hops (t : shape) (x y g dst n : nat) : Prop :=
  match n with
  | 0 => xy_connected t x y g dst = true
  | 1 => (exists x', x' < s_x t /\ xy_connected t x' y g dst = true) \/
         (exists y', y' < s_y t /\ xy_connected t x y' g dst = true)
  | _ => exists x' y', x' < s_x t /\ y' < s_y t /\ xy_connected t x' y' g dst = true
  end.

Lemma rotate_in : forall n start v, v < n -> In v (map (fun k => (start + k) mod n) (seq 0 n)).
Proof.
  intros n start v H. apply in_map_iff. exists ((v + n - start mod n) mod n).
  pose proof (Nat.mod_upper_bound start n ltac:(lia)).
  split; [|apply in_seq; pose proof (Nat.mod_upper_bound (v + n - start mod n) n ltac:(lia)); lia].
  rewrite Nat.add_mod_idemp_r by lia. rewrite <- Nat.add_mod_idemp_l by lia.
  replace (start mod n + (v + n - start mod n)) with (v + 1 * n) by lia.
  rewrite Nat.mod_add by lia. apply Nat.mod_small. exact H.
Qed.

Lemma rotate_lt : forall n start v, 1 <= n -> In v (map (fun k => (start + k) mod n) (seq 0 n)) -> v < n.
Proof. intros n start v H K. apply in_map_iff in K as (k & <- & _). apply Nat.mod_upper_bound. lia. Qed.

Lemma find_y_some : forall t s x g dst y, 1 <= s_y t -> find_y t s x g dst = Some y -> y < s_y t /\ xy_connected t x y g dst = true.
Proof. intros t s x g dst y H F. apply find_some in F as [F1 F2]. split; [eapply rotate_lt; eauto|exact F2]. Qed.
Lemma find_x_some : forall t s y g dst x, 1 <= s_x t -> find_x t s y g dst = Some x -> x < s_x t /\ xy_connected t x y g dst = true.
Proof. intros t s y g dst x H F. apply find_some in F as [F1 F2]. split; [eapply rotate_lt; eauto|exact F2]. Qed.
Lemma find_y_none : forall t s x g dst y, find_y t s x g dst = None -> y < s_y t -> xy_connected t x y g dst = false.
Proof. intros t s x g dst y F H. exact (find_none _ _ F y (rotate_in _ _ _ H)). Qed.
Lemma find_x_none : forall t s y g dst x, find_x t s y g dst = None -> x < s_x t -> xy_connected t x y g dst = false.
Proof. intros t s y g dst x F H. exact (find_none _ _ F x (rotate_in _ _ _ H)). Qed.

Lemma find_any_some : forall t ys g dst l, 1 <= s_y t -> (exists x y, In x l /\ y < s_y t /\ xy_connected t x y g dst = true) ->
  exists x y, In x l /\ y < s_y t /\ xy_connected t x y g dst = true /\ find_any t ys g dst l = Some (y_port t y).
Proof.
  intros t ys g dst l HY. induction l as [|x0 l IH]; intros (x & y & Hx & Hy & C); [destruct Hx|]. cbn [find_any].
  destruct (find_y t (ys (S x0)) x0 g dst) as [y0|] eqn:F.
  - destruct (find_y_some _ _ _ _ _ _ HY F). exists x0, y0. split; [left; reflexivity|auto].
  - destruct Hx as [->|Hx].
    + rewrite (find_y_none _ _ _ _ _ _ F Hy) in C. discriminate.
    + destruct IH as (x1 & y1 & I1 & I2 & I3 & I4); [exists x, y; auto|]. exists x1, y1. split; [right; exact I1|auto].
Qed.

(** If some switch of the group is connected according to xy_connected_to_group, then from
    every switch of the group the packet gets to such a switch over existing cables in at most
    two hops, each hop bringing it nearer, and there it takes the port of the wanted group. *)
Theorem cascade_gateway_partial : forall t xs ys s dst,
  shape_ok t -> s < cas_switches t -> cg t s <> cg t dst ->
  (exists x y, x < s_x t /\ y < s_y t /\ xy_connected t x y (cg t s) (cg t dst) = true) ->
  (xy_connected t (cx t s) (cy t s) (cg t s) (cg t dst) = true /\
     cas_minimal_route t xs ys s dst = Some (g_port t (cg t dst))) \/
  (exists p s1 n, cas_minimal_route t xs ys s dst = Some p /\
     far_end (cas_outports t) (cas_switches t) s p = Some s1 /\ cg t s1 = cg t s /\ n <= 1 /\
     gate_hops t (cx t s1) (cy t s1) (cg t s1) (cg t dst) n /\
     (forall m, m <= n -> ~ gate_hops t (cx t s) (cy t s) (cg t s) (cg t dst) m)).
Proof.
  intros t xs ys s dst OK Hs HG EX. destruct (uid_coords t s OK Hs) as (A1 & A2 & A3 & A4).
  destruct OK as (OX & OY & OG). assert (OK : shape_ok t) by (repeat split; assumption).
  unfold cas_minimal_route. destruct (Nat.eqb_spec (cg t s) (cg t dst)); [contradiction|]. cbn [negb].
  unfold path_to_group. destruct (xy_connected t (cx t s) (cy t s) (cg t s) (cg t dst)) eqn:C0; [left; auto|right].
  destruct (find_x t xs (cy t s) (cg t s) (cg t dst)) as [x'|] eqn:FX.
  { destruct (find_x_some _ _ _ _ _ _ OX FX) as [L C].
    assert (x' <> cx t s) by (intros ->; congruence).
    exists (x_port t x'), (cuid t x' (cy t s) (cg t s)), 0.
    destruct (coords_uid t x' (cy t s) (cg t s) L A2) as (D1 & D2 & D3).
    split; [reflexivity|split; [apply far_x; auto|split; [exact D3|split; [lia|split]]]].
    - cbn. rewrite D1, D2, D3. exact C.
    - intros [|m] Hm; [|lia]. cbn. congruence. }
  destruct (find_y t (ys 0) (cx t s) (cg t s) (cg t dst)) as [y'|] eqn:FY.
  { destruct (find_y_some _ _ _ _ _ _ OY FY) as [L C].
    assert (y' <> cy t s) by (intros ->; congruence).
    exists (y_port t y'), (cuid t (cx t s) y' (cg t s)), 0.
    destruct (coords_uid t (cx t s) y' (cg t s) A1 L) as (D1 & D2 & D3).
    split; [reflexivity|split; [apply far_y; auto|split; [exact D3|split; [lia|split]]]].
    - cbn. rewrite D1, D2, D3. exact C.
    - intros [|m] Hm; [|lia]. cbn. congruence. }
  destruct EX as (x0 & y0 & E1 & E2 & E3).
  destruct (find_any_some t ys (cg t s) (cg t dst) (seq 0 (s_x t)) OY) as (x1 & y1 & I1 & I2 & I3 & I4).
  { exists x0, y0. split; [apply in_seq; lia|auto]. }
  apply in_seq in I1.
  assert (y1 <> cy t s).
  { intros ->. rewrite (find_x_none _ _ _ _ _ x1 FX) in I3 by lia. discriminate. }
  exists (y_port t y1), (cuid t (cx t s) y1 (cg t s)), 1.
  destruct (coords_uid t (cx t s) y1 (cg t s) A1 I2) as (D1 & D2 & D3).
  split; [exact I4|split; [apply far_y; auto|split; [exact D3|split; [lia|split]]]].
  - cbn. rewrite D1, D2, D3. left. exists x1. split; [lia|exact I3].
  - intros [|[|m]] Hm; [| |lia]; cbn.
    + congruence.
    + intros [(x' & L & C)|(y' & L & C)].
      * rewrite (find_x_none _ _ _ _ _ x' FX L) in C. discriminate.
      * rewrite (find_y_none _ _ _ _ _ y' FY L) in C. discriminate.
Qed.
Print Assumptions cascade_gateway_partial.

Example cascade_gateway_example :
  let t := cas_shape 3 3 9 1 in
  xy_connected t 2 2 0 8 = true /\
  cas_minimal_route t 0 (fun _ => 0) 0 (8 * 9) = Some (y_port t 2) /\
  cas_minimal_route t 0 (fun _ => 0) 6 (8 * 9) = Some (x_port t 2) /\
  cas_minimal_route t 0 (fun _ => 0) 8 (8 * 9) = Some (g_port t 8).
Proof. vm_compute. auto. Qed.

(** ** C92: cables *)

Definition even (n : nat) : Prop := exists k, n = 2 * k.

(** Missing from the full claim: an odd number of group connections (refuted below).  With an
    even number every cable is a cable in both directions, between the same ports. *)
Theorem cascade_symmetric_partial : forall t src c,
  shape_ok t -> even (s_con t) -> src < cas_switches t -> In c (cas_outports t src) ->
  (0 <= c_dst c < Z.of_nat (cas_switches t))%Z /\
  In (Conn (Z.to_nat (c_dst c)) (Z.of_nat src) (c_inport c) (c_outport c)) (cas_outports t (Z.to_nat (c_dst c))).
Proof.
  intros t src c OK (half & EC) Hs H. destruct (uid_coords t src OK Hs) as (A1 & A2 & A3 & A4).
  pose proof OK as (OX & OY & OG).
  assert (EH : s_con t / 2 = half) by (rewrite EC, Nat.mul_comm; apply Nat.div_mul; lia).
  apply outports_in in H as [(x & Hx & N & ->)|[(y & Hy & N & ->)|(d & Hd & N & ->)]]; cbn [c_dst c_inport c_outport]; rewrite Nat2Z.id.
  - destruct (coords_uid t x (cy t src) (cg t src) Hx A2) as (D1 & D2 & D3).
    pose proof (uid_lt t x (cy t src) (cg t src) Hx A2 A3). split; [lia|].
    apply outports_in. left. exists (cx t src). rewrite D1, D2, D3, A4. auto.
  - destruct (coords_uid t (cx t src) y (cg t src) A1 Hy) as (D1 & D2 & D3).
    pose proof (uid_lt t (cx t src) y (cg t src) A1 Hy A3). split; [lia|].
    apply outports_in. right; left. exists (cy t src). rewrite D1, D2, D3, A4. auto.
  - set (dg := dir_to_group t (cx t src) (cy t src) (cg t src) d) in *.
    assert (HD : dg < s_g t) by (apply dir_lt; lia).
    destruct (coords_uid t (cx t src) (cy t src) dg A1 A2) as (D1 & D2 & D3).
    pose proof (uid_lt t (cx t src) (cy t src) dg A1 A2 HD). split; [lia|].
    apply outports_in. right; right.
    assert (R : exists d', d' < s_con t /\ dir_to_group t (cx t src) (cy t src) dg d' = cg t src).
    { unfold dg. clear dg HD D1 D2 D3 H N. unfold dir_to_group. cbn zeta. rewrite EH.
      set (a := (cx t src * s_y t + cy t src) * half). destruct (Nat.leb_spec half d).
      - exists (d - half). split; [lia|]. destruct (Nat.leb_spec half (d - half)); [lia|].
        pose proof (Z.mod_pos_bound (Z.of_nat (cg t src) - Z.of_nat a - Z.of_nat (d - half)) (Z.of_nat (s_g t)) ltac:(lia)) as B.
        apply Nat2Z.inj. rewrite Nat2Z.inj_mod, !Nat2Z.inj_add, Z2Nat.id by lia.
        rewrite <- Z.add_assoc, Z.add_mod_idemp_l by lia.
        replace (Z.of_nat (cg t src) - Z.of_nat a - Z.of_nat (d - half) + (Z.of_nat a + Z.of_nat (d - half)))%Z with (Z.of_nat (cg t src)) by lia.
        apply Z.mod_small. lia.
      - exists (d + half). split; [lia|]. destruct (Nat.leb_spec half (d + half)); [|lia].
        replace (d + half - half) with d by lia.
        rewrite Nat2Z.inj_mod, !Nat2Z.inj_add.
        rewrite <- Z.sub_add_distr, Zminus_mod_idemp_l.
        replace (Z.of_nat (cg t src) + Z.of_nat a + Z.of_nat d - (Z.of_nat a + Z.of_nat d))%Z with (Z.of_nat (cg t src)) by lia.
        rewrite Z.mod_small by lia. apply Nat2Z.id. }
    destruct R as (d' & R1 & R2). exists d'. rewrite D1, D2, D3, R2, A4. auto.
Qed.
Print Assumptions cascade_symmetric_partial.

Theorem cascade_symmetric_refuted : exists t src c,
  shape_ok t /\ s_con t < s_g t /\ src < cas_switches t /\ In c (cas_outports t src) /\
  ~ In (Conn (Z.to_nat (c_dst c)) (Z.of_nat src) (c_inport c) (c_outport c)) (cas_outports t (Z.to_nat (c_dst c))).
Proof.
  exists (cas_shape 1 1 5 3), 0, (Conn 0 4 6 2). split; [repeat split; cbn; lia|split; [cbn; lia|split; [cbn; lia|]]].
  assert (E : cas_outports (cas_shape 1 1 5 3) 0 = [Conn 0 4 6 2]) by (vm_compute; reflexivity).
  assert (E4 : cas_outports (cas_shape 1 1 5 3) 4 = [Conn 4 3 5 6]) by (vm_compute; reflexivity).
  split; [rewrite E; left; reflexivity|]. cbn [c_dst c_inport c_outport]. change (Z.to_nat 4) with 4. rewrite E4.
  intros [K|[]]. discriminate.
Qed.
Print Assumptions cascade_symmetric_refuted.

(** A port never leads to two places, and ports are below those of the nodes. *)
Theorem cascade_ports_consistent : forall t src c c',
  shape_ok t -> src < cas_switches t -> In c (cas_outports t src) -> In c' (cas_outports t src) ->
  (c_outport c = c_outport c' -> c = c') /\ c_outport c < s_x t + s_y t + s_g t /\ c_inport c < s_x t + s_y t + s_g t /\
  c_dst c <> Z.of_nat src.
Proof.
  intros t src c c' OK Hs H H'. destruct (uid_coords t src OK Hs) as (A1 & A2 & A3 & A4). pose proof OK as (OX & OY & OG).
  apply outports_in in H; apply outports_in in H'.
  split.
  - destruct H as [(x & Hx & N & ->)|[(y & Hy & N & ->)|(d & Hd & N & ->)]];
    destruct H' as [(x' & Hx' & N' & ->)|[(y' & Hy' & N' & ->)|(d' & Hd' & N' & ->)]];
      cbn [c_outport]; unfold x_port, y_port, g_port; intros E; try lia.
    + subst. reflexivity.
    + assert (y = y') by lia. subst. reflexivity.
    + assert (E' : dir_to_group t (cx t src) (cy t src) (cg t src) d = dir_to_group t (cx t src) (cy t src) (cg t src) d') by lia.
      rewrite E'. reflexivity.
  - destruct H as [(x & Hx & N & ->)|[(y & Hy & N & ->)|(d & Hd & N & ->)]];
      cbn [c_outport c_inport c_dst]; unfold x_port, y_port, g_port.
    + split; [lia|split; [lia|]]. intros E. apply Nat2Z.inj in E.
      destruct (coords_uid t x (cy t src) (cg t src) Hx A2) as (D1 & _). congruence.
    + split; [lia|split; [lia|]]. intros E. apply Nat2Z.inj in E.
      destruct (coords_uid t (cx t src) y (cg t src) A1 Hy) as (_ & D1 & _). congruence.
    + pose proof (dir_lt t (cx t src) (cy t src) (cg t src) d OG). split; [lia|split; [lia|]]. intros E. apply Nat2Z.inj in E.
      destruct (coords_uid t (cx t src) (cy t src) (dir_to_group t (cx t src) (cy t src) (cg t src) d) A1 A2) as (_ & _ & D1). congruence.
Qed.
Print Assumptions cascade_ports_consistent.

(** The same cable can be listed twice, though. *)
Theorem cascade_ports_distinct_refuted : exists t src,
  shape_ok t /\ even (s_con t) /\ src < cas_switches t /\ ~ NoDup (map c_outport (cas_outports t src)).
Proof.
  exists (cas_shape 1 3 4 2), 2. split; [repeat split; cbn; lia|split; [exists 1; reflexivity|split; [cbn; lia|]]].
  assert (E : map c_outport (cas_outports (cas_shape 1 3 4 2) 2) = [1; 2; 6; 6]) by (vm_compute; reflexivity).
  rewrite E. intros K. inversion K as [|? ? _ K1]; subst. inversion K1 as [|? ? _ K2]; subst. inversion K2 as [|? ? N _].
  apply N. left. reflexivity.
Qed.
Print Assumptions cascade_ports_distinct_refuted.

(** ** C93: with an even number of connections and fewer groups than global ports per group
    (x * y * group_connections), any two groups are joined by a cable. *)
Theorem cascade_groups_joined : forall t g dst,
  shape_ok t -> even (s_con t) -> s_g t < s_x t * s_y t * s_con t -> g < s_g t -> dst < s_g t -> g <> dst ->
  exists x y c, x < s_x t /\ y < s_y t /\ In c (cas_outports t (cuid t x y g)) /\
    c_outport c = g_port t dst /\ c_dst c = Z.of_nat (cuid t x y dst).
Proof.
  intros t g dst (OX & OY & OG) (half & EC) LT Hg Hd N.
  assert (EH : s_con t / 2 = half) by (rewrite EC, Nat.mul_comm; apply Nat.div_mul; lia).
  assert (H1 : 1 <= half) by (destruct half; [nia|lia]).
  assert (G : exists x y d, x < s_x t /\ y < s_y t /\ d < s_con t /\ dir_to_group t x y g d = dst).
  { assert (AB : forall o, o < s_x t * s_y t * half -> exists x y h, x < s_x t /\ y < s_y t /\ h < half /\ (x * s_y t + y) * half + h = o).
    { intros o Ho. exists (o / half / s_y t), ((o / half) mod s_y t), (o mod half).
      assert (o / half < s_x t * s_y t) by (apply Nat.div_lt_upper_bound; lia).
      split; [apply Nat.div_lt_upper_bound; lia|]. split; [apply Nat.mod_upper_bound; lia|].
      split; [apply Nat.mod_upper_bound; lia|].
      pose proof (Nat.div_mod (o / half) (s_y t) ltac:(lia)). pose proof (Nat.div_mod o half ltac:(lia)).
      replace (o / half / s_y t * s_y t + (o / half) mod s_y t) with (o / half) by lia. lia. }
    set (o := if g <? dst then dst - g else dst + s_g t - g).
    assert (HO : 1 <= o < s_g t) by (unfold o; destruct (Nat.ltb_spec g dst); lia).
    destruct (Nat.lt_ge_cases o (s_x t * s_y t * half)) as [L|L].
    - destruct (AB o L) as (x & y & h & X1 & X2 & X3 & X4). exists x, y, h. split; [exact X1|split; [exact X2|split; [lia|]]].
      unfold dir_to_group. cbn zeta. rewrite EH. destruct (Nat.leb_spec half h); [lia|].
      replace (g + (x * s_y t + y) * half + h) with (g + o) by lia. unfold o. destruct (Nat.ltb_spec g dst).
      + replace (g + (dst - g)) with dst by lia. apply Nat.mod_small. exact Hd.
      + replace (g + (dst + s_g t - g)) with (dst + 1 * s_g t) by lia. rewrite Nat.mod_add by lia. apply Nat.mod_small. exact Hd.
    - assert (L' : s_g t - o < s_x t * s_y t * half) by nia.
      destruct (AB _ L') as (x & y & h & X1 & X2 & X3 & X4). exists x, y, (h + half). split; [exact X1|split; [exact X2|split; [lia|]]].
      unfold dir_to_group. cbn zeta. rewrite EH. destruct (Nat.leb_spec half (h + half)); [|lia].
      replace (h + half - half) with h by lia.
      replace (Z.of_nat g - Z.of_nat ((x * s_y t + y) * half) - Z.of_nat h)%Z with (Z.of_nat g - Z.of_nat (s_g t - o))%Z by lia.
      rewrite <- (Nat2Z.id dst). f_equal. unfold o. destruct (Nat.ltb_spec g dst).
      + symmetry. apply Z.mod_unique with (-1)%Z; lia.
      + symmetry. apply Z.mod_unique with 0%Z; lia. }
  destruct G as (x & y & d & X1 & X2 & X3 & X4). exists x, y.
  destruct (coords_uid t x y g X1 X2) as (D1 & D2 & D3).
  eexists. split; [exact X1|split; [exact X2|split]].
  - apply outports_in. right; right. exists d. rewrite D1, D2, D3, X4. split; [exact X3|split; [congruence|reflexivity]].
  - cbn. auto.
Qed.
Print Assumptions cascade_groups_joined.

Example cascade_groups_example :
  let t := cas_shape 3 2 11 2 in even (s_con t) /\ s_g t < s_x t * s_y t * s_con t /\
  map c_outport (cas_outports t (cuid t 2 1 0)) = [0; 1; 3; 10; 11].
Proof. cbn zeta. split; [exists 1; reflexivity|split; [cbn; lia|vm_compute; reflexivity]]. Qed.
