From Coq Require Import List ZArith Arith Bool Lia Relations.
From Verif Require Import TorusModel TorusSpec.
Import ListNotations.

(** ** Structural forms *)
Definition pos_dims (dims : list nat) := Forall (fun d => 0 < d) dims.

Fixpoint coords (dims : list nat) (u : nat) : list nat :=
  match dims with [] => [] | d :: r => u mod d :: coords r (u / d) end.
Fixpoint addr (dims cs : list nat) : nat :=
  match dims, cs with d :: r, c :: cs => c + d * addr r cs | _, _ => 0 end.

Lemma coords_loop_eq : forall dims div u, 0 < div -> pos_dims dims ->
  coords_loop div dims u = coords dims (u / div).
Proof.
  induction dims; intros; simpl; auto. inversion H0; subst. f_equal.
  rewrite IHdims by (auto; nia). rewrite Nat.div_div by lia. auto.
Qed.
Lemma switch_coords_eq : forall dims u, pos_dims dims -> switch_coords dims u = coords dims u.
Proof. intros. unfold switch_coords. rewrite coords_loop_eq by (auto; lia). rewrite Nat.div_1_r; auto. Qed.

Lemma addr_loop_eq : forall dims m cs, addr_loop m dims cs = m * addr dims cs.
Proof.
  induction dims; intros; simpl; [lia|]. destruct cs; [lia|]. rewrite IHdims. lia.
Qed.
Lemma switch_addr_eq : forall dims cs, switch_addr dims cs = addr dims cs.
Proof. intros. unfold switch_addr. rewrite addr_loop_eq. lia. Qed.

Lemma prod_pos : forall dims, pos_dims dims -> 0 < prod dims.
Proof. induction 1; simpl; nia. Qed.

Lemma div_lt : forall u d p, 0 < d -> u < d * p -> u / d < p.
Proof. intros. apply Nat.div_lt_upper_bound; lia. Qed.

Lemma coords_legal : forall dims u, pos_dims dims -> legal_coords dims (coords dims u).
Proof.
  unfold legal_coords. induction dims; intros; simpl; constructor; inversion H; subst; auto.
  apply Nat.mod_upper_bound. lia.
Qed.
Lemma addr_coords : forall dims u, pos_dims dims -> u < prod dims -> addr dims (coords dims u) = u.
Proof.
  induction dims; intros; simpl in *; [lia|]. inversion H; subst.
  rewrite IHdims; auto. rewrite Nat.add_comm. symmetry. apply Nat.div_mod; lia.
  apply div_lt; lia.
Qed.
Lemma mod_fst : forall x d k, x < d -> (x + d * k) mod d = x.
Proof. intros. rewrite Nat.mul_comm, Nat.mod_add by lia. apply Nat.mod_small; auto. Qed.
Lemma div_snd : forall x d k, x < d -> (x + d * k) / d = k.
Proof. intros. rewrite Nat.mul_comm, Nat.div_add by lia. rewrite Nat.div_small; auto. Qed.
Lemma coords_addr : forall dims cs, legal_coords dims cs -> coords dims (addr dims cs) = cs.
Proof.
  intros dims cs H. induction H; simpl; auto. rewrite mod_fst, div_snd by auto. f_equal; auto.
Qed.
Lemma addr_lt : forall dims cs, legal_coords dims cs -> addr dims cs < prod dims.
Proof. intros dims cs H. induction H; simpl; [lia|nia]. Qed.

Definition coord dims k u := nth k (coords dims u) 0.
Lemma coords_length : forall dims u, length (coords dims u) = length dims.
Proof. induction dims; simpl; auto. Qed.
Lemma coord_S : forall d r k u, coord (d :: r) (S k) u = coord r k (u / d).
Proof. reflexivity. Qed.
Lemma coord_0 : forall d r u, coord (d :: r) 0 u = u mod d.
Proof. reflexivity. Qed.
Lemma coord_lt : forall dims k d u, pos_dims dims -> nth_error dims k = Some d -> coord dims k u < d.
Proof.
  induction dims; intros; destruct k; simpl in H0; try discriminate.
  - injection H0; intros; subst. inversion H; subst. rewrite coord_0. apply Nat.mod_upper_bound; lia.
  - inversion H; subst. rewrite coord_S. eapply IHdims; eauto.
Qed.

(** sums over dimensions *)
Fixpoint sumd (f : nat -> nat -> nat -> nat) (dims : list nat) (s t : nat) : nat :=
  match dims with [] => 0 | d :: r => f d (s mod d) (t mod d) + sumd f r (s / d) (t / d) end.
Lemma mindist_loop_eq : forall dims div s t, 0 < div -> pos_dims dims ->
  mindist_loop div dims s t = sumd shortest_distance dims (s / div) (t / div).
Proof.
  induction dims; intros; simpl; auto. inversion H0; subst. f_equal.
  rewrite IHdims by (auto; nia). rewrite !Nat.div_div by lia. auto.
Qed.
Lemma minimal_distance_eq : forall dims s t, pos_dims dims ->
  minimal_distance dims s t = sumd shortest_distance dims s t.
Proof. intros. unfold minimal_distance. rewrite mindist_loop_eq by (auto; lia). rewrite !Nat.div_1_r; auto. Qed.

(** ** Moving one coordinate *)
Fixpoint setc (dims : list nat) (k x u : nat) : nat :=
  match dims with
  | [] => u
  | d :: r => match k with
              | 0 => x + d * (u / d)
              | S k => u mod d + d * setc r k x (u / d)
              end
  end.

Lemma setc_coord : forall dims k d x u j, nth_error dims k = Some d -> pos_dims dims -> x < d ->
  coord dims j (setc dims k x u) = if j =? k then x else coord dims j u.
Proof.
  induction dims; intros; destruct k; simpl in H; try discriminate; inversion H0; subst.
  - injection H; intros; subst. destruct j; simpl setc; [rewrite coord_0|rewrite !coord_S].
    + rewrite mod_fst by auto. auto.
    + rewrite div_snd by auto. auto.
  - simpl setc. assert (u mod a < a) by (apply Nat.mod_upper_bound; lia).
    destruct j; [rewrite !coord_0|rewrite !coord_S].
    + rewrite mod_fst by auto. auto.
    + rewrite div_snd by auto. simpl. eapply IHdims; eauto.
Qed.
Lemma setc_lt : forall dims k d x u, nth_error dims k = Some d -> pos_dims dims -> x < d ->
  u < prod dims -> setc dims k x u < prod dims.
Proof.
  induction dims; intros; destruct k; simpl in H; try discriminate; inversion H0; subst; simpl in *.
  - injection H; intros; subst. assert (u / d < prod dims) by (apply div_lt; auto). nia.
  - assert (u mod a < a) by (apply Nat.mod_upper_bound; lia).
    assert (u / a < prod dims) by (apply div_lt; auto).
    specialize (IHdims k d x (u / a) H H6 H1 H4). nia.
Qed.
Lemma setc_sum : forall f dims k d x u t, nth_error dims k = Some d -> pos_dims dims -> x < d ->
  sumd f dims (setc dims k x u) t + f d (coord dims k u) (coord dims k t)
  = sumd f dims u t + f d x (coord dims k t).
Proof.
  induction dims; intros; destruct k; simpl in H; try discriminate; inversion H0; subst; simpl.
  - injection H; intros; subst. rewrite mod_fst, div_snd by auto. rewrite !coord_0. lia.
  - assert (u mod a < a) by (apply Nat.mod_upper_bound; lia).
    rewrite mod_fst, div_snd by auto. rewrite !coord_S.
    specialize (IHdims k d x (u / a) (t / a) H H5 H1). lia.
Qed.
Lemma setc_self : forall dims k d x u, nth_error dims k = Some d -> pos_dims dims -> x < d ->
  x = coord dims k u -> setc dims k x u = u.
Proof.
  induction dims; intros; destruct k; simpl in H; try discriminate; inversion H0; subst; simpl.
  - injection H; intros; subst. rewrite coord_0 in *.
    rewrite Nat.add_comm. symmetry. apply Nat.div_mod; lia.
  - rewrite (IHdims k d _ (u / a) H H6 H1) by (rewrite coord_S; auto).
    rewrite Nat.add_comm. symmetry. apply Nat.div_mod; lia.
Qed.
Lemma setc_setc : forall dims k d x y u, nth_error dims k = Some d -> pos_dims dims -> x < d ->
  setc dims k y (setc dims k x u) = setc dims k y u.
Proof.
  induction dims; intros; destruct k; simpl in H; try discriminate; inversion H0; subst; simpl.
  - injection H; intros; subst. rewrite div_snd by auto. auto.
  - assert (u mod a < a) by (apply Nat.mod_upper_bound; lia).
    rewrite mod_fst, div_snd by auto. f_equal. f_equal. eapply IHdims; eauto.
Qed.

(** ** The cables: the connection list in closed form, when every dimension has size >= 2 *)
Definition up1 (d x : nat) := if x =? d - 1 then 0 else x + 1.
Definition down1 (d x : nat) := if x =? 0 then d - 1 else x - 1.
Definition big_dims (dims : list nat) := Forall (fun d => 2 <= d) dims.
Lemma big_pos : forall dims, big_dims dims -> pos_dims dims.
Proof. unfold big_dims, pos_dims. intros. eapply Forall_impl; [|exact H]. simpl; lia. Qed.
Lemma up1_lt : forall d x, x < d -> up1 d x < d.
Proof. unfold up1; intros; destruct (Nat.eqb_spec x (d - 1)); lia. Qed.
Lemma down1_lt : forall d x, x < d -> down1 d x < d.
Proof. unfold down1; intros; destruct (Nat.eqb_spec x 0); lia. Qed.
Lemma down1_up1 : forall d x, x < d -> down1 d (up1 d x) = x.
Proof.
  unfold up1, down1; intros. destruct (Nat.eqb_spec x (d-1)); simpl; try lia.
  destruct (Nat.eqb_spec (x+1) 0); lia.
Qed.
Lemma up1_down1 : forall d x, x < d -> up1 d (down1 d x) = x.
Proof.
  unfold up1, down1; intros. destruct (Nat.eqb_spec x 0); simpl.
  - rewrite Nat.eqb_refl; lia.
  - destruct (Nat.eqb_spec (x-1) (d-1)); lia.
Qed.

Definition cnx (dims : list nat) (s i dir : nat) : conn :=
  let d := nth i dims 0 in
  Conn s (if (d =? 1) && (dir =? 1) then (Z.of_nat s - Z.of_nat (prod (firstn i dims)))%Z
          else Z.of_nat (setc dims i (if dir =? 0 then up1 d (coord dims i s) else down1 d (coord dims i s)) s))
       (to_port i dir) (to_port i (1 - dir)).

(** value arithmetic of a jump: s = lo + stride * hi *)
Lemma jump_val : forall dims lo stride hi k d x, nth_error dims k = Some d -> pos_dims dims ->
  lo < stride ->
  forall m, m = prod (firstn k dims) ->
  (Z.of_nat (lo + stride * setc dims k x hi) =
   Z.of_nat (lo + stride * hi) + (Z.of_nat x - Z.of_nat (coord dims k hi)) * Z.of_nat (stride * m))%Z.
Proof.
  induction dims; intros; destruct k; simpl in H; try discriminate; inversion H0; subst.
  - injection H; intros; subst. simpl. rewrite coord_0.
    pose proof (Nat.div_mod hi d ltac:(lia)). nia.
  - simpl setc. rewrite coord_S.
    pose proof (Nat.div_mod hi a ltac:(lia)) as DM.
    assert (Hm : hi mod a < a) by (apply Nat.mod_upper_bound; lia).
    specialize (IHdims (lo + stride * (hi mod a)) (stride * a) (hi / a) k d x H H6 ltac:(nia) _ eq_refl).
    simpl prod.
    replace (lo + stride * (hi mod a + a * setc dims k x (hi / a)))
      with (lo + stride * (hi mod a) + stride * a * setc dims k x (hi / a)) by lia.
    rewrite IHdims.
    replace (lo + stride * (hi mod a) + stride * a * (hi / a)) with (lo + stride * hi) by nia.
    replace (stride * a * prod (firstn k dims)) with (stride * (a * prod (firstn k dims))) by lia.
    auto.
Qed.

Lemma outports_loop_eq : forall pre dims s, pos_dims (pre ++ dims) ->
  outports_loop (length pre) (prod pre) dims s =
  flat_map (fun i => [cnx (pre ++ dims) s i 0; cnx (pre ++ dims) s i 1]) (seq (length pre) (length dims)).
Proof.
  intros pre dims; revert pre. induction dims; intros; simpl; auto.
  assert (Hpre : pre ++ a :: dims = (pre ++ [a]) ++ dims) by (rewrite <- app_assoc; auto).
  assert (Hbig := H). rewrite Hpre in H.
  specialize (IHdims (pre ++ [a]) s H). rewrite <- Hpre in IHdims.
  rewrite app_length in IHdims. simpl in IHdims. rewrite Nat.add_1_r in IHdims.
  assert (Hprod : prod (pre ++ [a]) = prod pre * a).
  { clear. induction pre; simpl; [lia|]. rewrite IHpre. lia. }
  rewrite Hprod in IHdims. rewrite IHdims.
  assert (Hnth : nth_error (pre ++ a :: dims) (length pre) = Some a).
  { rewrite nth_error_app2 by lia. rewrite Nat.sub_diag. auto. }
  assert (Hpos := Hbig).
  assert (Hco : forall u, coord (pre ++ a :: dims) (length pre) u = (u / prod pre) mod a).
  { clear - Hpos. revert Hpos. induction pre; intros.
    - simpl app. simpl length. rewrite coord_0. cbn [prod]. rewrite Nat.div_1_r. auto.
    - simpl app in *. inversion Hpos; subst. simpl length. rewrite coord_S, IHpre by auto.
      simpl. rewrite Nat.div_div; auto. lia.
      assert (0 < prod pre) by (apply prod_pos; unfold pos_dims in *; rewrite Forall_app in H2; tauto). lia. }
  assert (Ha : 1 <= a).
  { unfold pos_dims in Hbig. rewrite Forall_app in Hbig. destruct Hbig as [_ B]. inversion B; auto. }
  assert (Hx : (s / prod pre) mod a < a) by (apply Nat.mod_upper_bound; lia).
  assert (Hj : forall x, (Z.of_nat (setc (pre ++ a :: dims) (length pre) x s) =
     Z.of_nat s + (Z.of_nat x - Z.of_nat ((s / prod pre) mod a)) * Z.of_nat (prod pre))%Z).
  { intros. pose proof (jump_val _ 0 1 s (length pre) a x Hnth Hpos ltac:(lia) _ eq_refl) as J.
    rewrite firstn_app, Nat.sub_diag, firstn_all, app_nil_r, Hco in J.
    rewrite !Nat.mul_1_l, !Nat.add_0_l in J. exact J. }
  set (x := (s / prod pre) mod a) in *.
  f_equal; [|f_equal].
  - unfold cnx. rewrite Hco. fold x. simpl (0 =? 0). cbv iota. rewrite Hj.
    rewrite (nth_error_nth _ _ 0 Hnth). unfold up1. rewrite andb_false_r.
    replace (1 - 0) with 1 by lia. f_equal.
    destruct (Z.eqb_spec (Z.of_nat x) (Z.of_nat a - 1)), (Nat.eqb_spec x (a - 1)); try lia; nia.
  - unfold cnx. rewrite Hco. fold x. simpl (1 =? 0). cbv iota. rewrite Hj.
    rewrite (nth_error_nth _ _ 0 Hnth). unfold down1. rewrite firstn_app, Nat.sub_diag, firstn_all, app_nil_r.
    replace (1 - 1) with 0 by lia. f_equal. cbn [Nat.eqb]. rewrite andb_true_r.
    destruct (Z.eqb_spec (Z.of_nat x) (Z.of_nat a - 1)), (Nat.eqb_spec x 0), (Nat.eqb_spec a 1); try lia; nia.
Qed.

Lemma outports_eq : forall dims s, pos_dims dims ->
  connected_outports dims s =
  flat_map (fun i => [cnx dims s i 0; cnx dims s i 1]) (seq 0 (length dims)).
Proof. intros. exact (outports_loop_eq [] dims s H). Qed.

Lemma in_outports : forall dims s c, pos_dims dims ->
  (In c (connected_outports dims s) <-> exists i dir, i < length dims /\ dir < 2 /\ c = cnx dims s i dir).
Proof.
  intros. rewrite outports_eq by auto. rewrite in_flat_map. split.
  - intros (i & Hi & Hc). apply in_seq in Hi. simpl in Hc.
    destruct Hc as [Hc|[Hc|[]]]; subst c; [exists i, 0|exists i, 1]; repeat split; auto; lia.
  - intros (i & dir & Hi & Hd & Hc). exists i. split. apply in_seq; lia.
    simpl. destruct dir as [|[|]]; subst; auto; lia.
Qed.

Lemma nth_dim : forall dims i, i < length dims -> nth_error dims i = Some (nth i dims 0).
Proof. intros. apply nth_error_nth'; auto. Qed.
Lemma coord_lt' : forall dims i s, pos_dims dims -> i < length dims -> coord dims i s < nth i dims 0.
Proof. intros. eapply coord_lt; eauto. apply nth_dim; auto. Qed.

Definition nbr (dims : list nat) (s i dir : nat) : nat :=
  let d := nth i dims 0 in
  setc dims i (if dir =? 0 then up1 d (coord dims i s) else down1 d (coord dims i s)) s.
Definition mv (d dir x : nat) := if dir =? 0 then up1 d x else down1 d x.
Lemma nbr_mv : forall dims s i dir, nbr dims s i dir = setc dims i (mv (nth i dims 0) dir (coord dims i s)) s.
Proof. intros. unfold nbr, mv. auto. Qed.
Lemma mv_lt : forall d dir x, x < d -> mv d dir x < d.
Proof. intros; unfold mv; destruct (dir =? 0); auto using up1_lt, down1_lt. Qed.
Lemma mv_back : forall d dir x, dir < 2 -> x < d -> mv d (1 - dir) (mv d dir x) = x.
Proof.
  intros. unfold mv. destruct dir as [|[|]]; simpl; try lia; auto using up1_down1, down1_up1.
Qed.
Lemma nbr_lt : forall dims s i dir, pos_dims dims -> i < length dims -> s < prod dims ->
  nbr dims s i dir < prod dims.
Proof.
  intros. rewrite nbr_mv. apply setc_lt with (d := nth i dims 0); auto. apply nth_dim; auto.
  apply mv_lt. apply coord_lt'; auto.
Qed.
Lemma nbr_coord : forall dims s i dir j, pos_dims dims -> i < length dims ->
  coord dims j (nbr dims s i dir) = if j =? i then mv (nth i dims 0) dir (coord dims i s) else coord dims j s.
Proof.
  intros. rewrite nbr_mv. apply setc_coord with (d := nth i dims 0); auto. apply nth_dim; auto.
  apply mv_lt. apply coord_lt'; auto.
Qed.
Lemma nbr_back : forall dims s i dir, pos_dims dims -> i < length dims -> dir < 2 ->
  nbr dims (nbr dims s i dir) i (1 - dir) = s.
Proof.
  intros. rewrite nbr_mv at 1. rewrite nbr_coord by auto. rewrite Nat.eqb_refl.
  rewrite mv_back by (auto; apply coord_lt'; auto).
  rewrite nbr_mv. pose proof (coord_lt' dims i s H H0).
  rewrite setc_setc with (d := nth i dims 0) by (auto using nth_dim, mv_lt).
  apply setc_self with (d := nth i dims 0); auto using nth_dim.
Qed.
Lemma cnx_dst : forall dims s i dir, 2 <= nth i dims 0 ->
  c_dst (cnx dims s i dir) = Z.of_nat (nbr dims s i dir).
Proof. intros. unfold cnx. cbn [c_dst]. destruct (Nat.eqb_spec (nth i dims 0) 1); [lia|]. reflexivity. Qed.
Lemma big_nth : forall dims i, big_dims dims -> i < length dims -> 2 <= nth i dims 0.
Proof. unfold big_dims. intros. rewrite Forall_forall in H. apply H. apply nth_In; auto. Qed.

Lemma find_flat : forall dims s i dir l, In i l -> NoDup l -> dir < 2 ->
  find (fun c => c_outport c =? to_port i dir) (flat_map (fun i => [cnx dims s i 0; cnx dims s i 1]) l)
  = Some (cnx dims s i dir).
Proof.
  induction l; intros; [contradiction|].
  cbn [flat_map app find].
  assert (E0: forall x y, c_outport (cnx dims s x y) = 2 * x + y) by reflexivity.
  rewrite !E0. unfold to_port. inversion H0; subst.
  destruct H.
  - subst a. destruct dir as [|[|]]; try lia.
    + rewrite Nat.eqb_refl. auto.
    + destruct (Nat.eqb_spec (2 * i + 0) (2 * i + 1)); try lia. rewrite Nat.eqb_refl. auto.
  - assert (a <> i) by congruence.
    destruct (Nat.eqb_spec (2 * a + 0) (2 * i + dir)); try lia.
    destruct (Nat.eqb_spec (2 * a + 1) (2 * i + dir)); try lia.
    apply IHl; auto.
Qed.

Lemma next_switch_eq : forall dims s i dir, pos_dims dims -> s < prod dims -> i < length dims -> dir < 2 ->
  2 <= nth i dims 0 -> next_switch dims s (to_port i dir) = Some (nbr dims s i dir).
Proof.
  intros. unfold next_switch. rewrite outports_eq by auto.
  rewrite find_flat; auto; [|apply in_seq; lia|apply seq_NoDup].
  rewrite cnx_dst by auto. pose proof (nbr_lt dims s i dir H H1 H0).
  destruct (Z.leb_spec 0 (Z.of_nat (nbr dims s i dir))); try lia.
  destruct (Z.ltb_spec (Z.of_nat (nbr dims s i dir)) (Z.of_nat (prod dims))); try lia.
  simpl. rewrite Nat2Z.id. auto.
Qed.
