From Coq Require Import List ZArith Arith Bool Lia Relations.
From Verif Require Import TorusModel TorusSpec TorusProof.
Import ListNotations.

(** ** Which hop the minimal router takes *)
Fixpoint route' (i : nat) (dims : list nat) (src dst : nat) (h : hdr) : option hdr :=
  match dims with
  | [] => None
  | d :: r =>
      if negb (src mod d =? dst mod d) then
        if shortest_path_positive d (src mod d) (dst mod d) then Some (up_path i d (src mod d) h)
        else Some (down_path i d (src mod d) h)
      else route' (S i) r (src / d) (dst / d) h
  end.
Lemma route_loop_eq : forall dims i div s t h, 0 < div -> pos_dims dims ->
  route_loop i div dims s t h = route' i dims (s / div) (t / div) h.
Proof.
  induction dims; intros; simpl; auto. inversion H0; subst.
  rewrite IHdims by (auto; nia). rewrite !Nat.div_div by lia. auto.
Qed.

Definition path (dir dim d x : nat) (h : hdr) :=
  if dir =? 0 then up_path dim d x h else down_path dim d x h.
Definition pdir (d x y : nat) : nat := if shortest_path_positive d x y then 0 else 1.

Lemma route'_char : forall dims i s t h, pos_dims dims -> s < prod dims -> t < prod dims -> s <> t ->
  exists j, j < length dims /\ (forall k, k < j -> coord dims k s = coord dims k t) /\
    coord dims j s <> coord dims j t /\
    route' i dims s t h =
      Some (path (pdir (nth j dims 0) (coord dims j s) (coord dims j t)) (i + j) (nth j dims 0) (coord dims j s) h).
Proof.
  induction dims; intros; simpl in *; [lia|]. inversion H; subst.
  destruct (Nat.eqb_spec (s mod a) (t mod a)); simpl.
  - assert (s / a <> t / a).
    { intro. pose proof (Nat.div_mod s a ltac:(lia)). pose proof (Nat.div_mod t a ltac:(lia)). nia. }
    destruct (IHdims (S i) (s / a) (t / a) h H6 ltac:(apply div_lt; lia) ltac:(apply div_lt; lia) H3)
      as (j & Hj & Heq & Hne & Hr).
    exists (S j). repeat split; try lia.
    + intros k Hk. destruct k. rewrite !coord_0; auto. rewrite !coord_S. apply Heq; lia.
    + rewrite !coord_S. auto.
    + rewrite Hr, !coord_S. replace (i + S j) with (S i + j) by lia. auto.
  - exists 0. rewrite !coord_0. repeat split; try lia. auto.
    rewrite Nat.add_0_r. unfold pdir, path.
    destruct (shortest_path_positive a (s mod a) (t mod a)); auto.
Qed.

Lemma route_char : forall dims s t h, pos_dims dims -> s < prod dims -> t < prod dims -> s <> t ->
  exists j, j < length dims /\ (forall k, k < j -> coord dims k s = coord dims k t) /\
    coord dims j s <> coord dims j t /\
    minimal_route dims s t h =
      Some (path (pdir (nth j dims 0) (coord dims j s) (coord dims j t)) j (nth j dims 0) (coord dims j s) h).
Proof.
  intros. unfold minimal_route. rewrite route_loop_eq by (auto; lia). rewrite !Nat.div_1_r.
  exact (route'_char dims 0 s t h H H0 H1 H2).
Qed.

Lemma coord_inj : forall dims s t, pos_dims dims -> s < prod dims -> t < prod dims ->
  (forall k, k < length dims -> coord dims k s = coord dims k t) -> s = t.
Proof.
  intros. rewrite <- (addr_coords dims s), <- (addr_coords dims t) by auto. f_equal.
  apply nth_ext with 0 0. rewrite !coords_length; auto. intros. apply H2.
  rewrite coords_length in *; auto.
Qed.

(** ** Distances *)
Lemma sd_cases : forall d x y, x < d -> y < d ->
  shortest_distance d x y =
    if x =? y then 0 else Nat.min (up_distance d x y) (down_distance d x y).
Proof.
  intros. unfold shortest_distance, up_distance, down_distance.
  destruct (Nat.eqb_spec x y).
  - subst. rewrite Nat.ltb_irrefl. replace (y - y) with 0 by lia.
    destruct (Nat.ltb_spec 0 (y + (d - y))); try lia.
    replace (y + d - y) with (1 * d) by lia. apply Nat.mod_mul; lia.
  - destruct (Nat.ltb_spec x y).
    + destruct (Nat.ltb_spec (x + (d - y)) (y - x)).
      * rewrite Nat.mod_small by lia. lia.
      * replace (y + d - x) with (y - x + 1 * d) by lia. rewrite Nat.mod_add, Nat.mod_small by lia. lia.
    + destruct (Nat.ltb_spec (x - y) (y + (d - x))).
      * replace (x + d - y) with (x - y + 1 * d) by lia. rewrite Nat.mod_add, Nat.mod_small by lia. lia.
      * rewrite Nat.mod_small by lia. lia.
Qed.

Ltac sdcases :=
  repeat match goal with
  | H : context [?a =? ?b] |- _ => destruct (Nat.eqb_spec a b)
  | H : context [?a <? ?b] |- _ => destruct (Nat.ltb_spec a b)
  | |- context [?a =? ?b] => destruct (Nat.eqb_spec a b)
  | |- context [?a <? ?b] => destruct (Nat.ltb_spec a b)
  | |- context [?a <=? ?b] => destruct (Nat.leb_spec a b)
  end; try lia.

Lemma sd_toward : forall d x y, x < d -> y < d -> x <> y ->
  shortest_distance d (mv d (pdir d x y) x) y + 1 = shortest_distance d x y.
Proof.
  intros. pose proof (mv_lt d (pdir d x y) x H).
  rewrite !sd_cases by auto. clear H2.
  unfold pdir, shortest_path_positive.
  destruct (Nat.leb_spec (up_distance d x y) (down_distance d x y)) as [L|L];
  unfold mv, up1, down1; cbn [Nat.eqb]; unfold up_distance, down_distance in *; sdcases.
Qed.
Lemma sd_lip : forall d x y dir, x < d -> y < d ->
  shortest_distance d x y <= shortest_distance d (mv d dir x) y + 1.
Proof.
  intros. pose proof (mv_lt d dir x H).
  rewrite !sd_cases by auto. clear H1.
  unfold mv, up1, down1, up_distance, down_distance.
  destruct (dir =? 0); sdcases.
Qed.
Lemma sd_zero : forall d x y, x < d -> y < d -> shortest_distance d x y = 0 -> x = y.
Proof.
  intros d x y H H0. rewrite sd_cases by auto. unfold up_distance, down_distance. sdcases.
Qed.

Lemma dist_nbr : forall dims s t i dir, pos_dims dims -> i < length dims ->
  minimal_distance dims (nbr dims s i dir) t + shortest_distance (nth i dims 0) (coord dims i s) (coord dims i t)
  = minimal_distance dims s t
    + shortest_distance (nth i dims 0) (mv (nth i dims 0) dir (coord dims i s)) (coord dims i t).
Proof.
  intros. rewrite !minimal_distance_eq by auto. rewrite nbr_mv. apply setc_sum; auto.
  apply nth_dim; auto. apply mv_lt, coord_lt'; auto.
Qed.

Lemma dist_refl : forall dims s, pos_dims dims -> minimal_distance dims s s = 0.
Proof.
  intros. rewrite minimal_distance_eq by auto. revert s. induction dims; intros; simpl; auto.
  inversion H; subst. rewrite IHdims by auto.
  rewrite sd_cases by (apply Nat.mod_upper_bound; lia). rewrite Nat.eqb_refl. auto.
Qed.
Lemma dist_zero : forall dims s t, pos_dims dims -> s < prod dims -> t < prod dims ->
  minimal_distance dims s t = 0 -> s = t.
Proof.
  intros. rewrite minimal_distance_eq in H2 by auto. revert s t H0 H1 H2.
  induction dims; intros; simpl in *; [lia|]. inversion H; subst.
  assert (s mod a = t mod a).
  { apply sd_zero with a; try (apply Nat.mod_upper_bound; lia). lia. }
  assert (s / a = t / a). { apply IHdims; auto; try (apply div_lt; lia). lia. }
  pose proof (Nat.div_mod s a ltac:(lia)). pose proof (Nat.div_mod t a ltac:(lia)). nia.
Qed.

(** One hop of the minimal router. *)
Lemma path_port : forall dir dim d x h, dir < 2 -> h_port (path dir dim d x h) = to_port dim dir.
Proof.
  intros. unfold path, up_path, down_path. destruct dir as [|[|]]; try lia; simpl.
  - destruct (Z.of_nat x =? Z.of_nat d - 1)%Z; auto. destruct (negb (Z.of_nat dim =? h_last h)%Z); auto.
  - destruct (x =? 0); auto. destruct (negb (Z.of_nat dim =? h_last h)%Z); auto.
Qed.
Lemma pdir_lt : forall d x y, pdir d x y < 2.
Proof. intros. unfold pdir. destruct shortest_path_positive; lia. Qed.

Lemma hop_char : forall dims s t h, pos_dims dims -> s < prod dims -> t < prod dims -> s <> t ->
  exists j, let d := nth j dims 0 in let x := coord dims j s in let y := coord dims j t in
    let dir := pdir d x y in
    j < length dims /\ (forall k, k < j -> coord dims k s = coord dims k t) /\ x <> y /\
    minimal_route dims s t h = Some (path dir j d x h) /\
    next_switch dims s (h_port (path dir j d x h)) = Some (nbr dims s j dir) /\
    nbr dims s j dir < prod dims /\
    minimal_distance dims (nbr dims s j dir) t + 1 = minimal_distance dims s t.
Proof.
  intros. pose proof H as P.
  destruct (route_char dims s t h P H0 H1 H2) as (j & Hj & Heq & Hne & Hr).
  exists j. cbv zeta. repeat split; auto.
  - rewrite path_port by apply pdir_lt. apply next_switch_eq; auto. apply pdir_lt.
    pose proof (coord_lt' dims j s P Hj). pose proof (coord_lt' dims j t P Hj). lia.
  - apply nbr_lt; auto.
  - pose proof (dist_nbr dims s t j (pdir (nth j dims 0) (coord dims j s) (coord dims j t)) P Hj).
    pose proof (sd_toward (nth j dims 0) (coord dims j s) (coord dims j t)
       (coord_lt' _ _ _ P Hj) (coord_lt' _ _ _ P Hj) Hne). lia.
Qed.

(** ** C15: the minimal router's path *)
Lemma walk_minimal : forall dims conc nid, pos_dims dims -> nid / conc < prod dims ->
  forall n s h, s < prod dims -> minimal_distance dims s (nid / conc) = n ->
  exists tr, walk dims (fun my h => torus_route dims conc my nid h) (S n) s h
     = Some (tr, nid / conc, nid mod conc + 2 * length dims) /\ length tr = n.
Proof.
  intros dims conc nid B T. pose proof B as P. induction n; intros.
  - apply dist_zero in H0; auto. subst s. exists []. simpl. unfold torus_route.
    rewrite Nat.eqb_refl. auto.
  - assert (s <> nid / conc). { intro. subst s. rewrite dist_refl in H0; auto. discriminate. }
    destruct (hop_char dims s (nid / conc) h B H T H1) as (j & Hj & _ & _ & Hr & Hn & Hlt & Hd).
    cbv zeta in *.
    set (dir := pdir (nth j dims 0) (coord dims j s) (coord dims j (nid / conc))) in *.
    set (h' := path dir j (nth j dims 0) (coord dims j s) h) in *.
    destruct (IHn (nbr dims s j dir) h' Hlt ltac:(lia)) as (tr & Hw & Hl).
    exists (Chan s (h_port h') (h_vc h') :: tr). split; [|simpl; lia].
    cbn [walk]. unfold torus_route at 1.
    destruct (Nat.eqb_spec (nid / conc) s); try congruence.
    rewrite Hr, Hn. cbn [walk] in Hw. rewrite Hw. auto.
Qed.

Lemma cable_nbr : forall dims s s', big_dims dims -> cable dims s s' ->
  exists i dir, i < length dims /\ dir < 2 /\ s' = nbr dims s i dir.
Proof.
  intros dims s s' B (c & Hin & Hd). apply in_outports in Hin; auto using big_pos.
  destruct Hin as (i & dir & Hi & Hdir & Hc). subst c. rewrite cnx_dst in Hd by (apply big_nth; auto).
  apply Nat2Z.inj in Hd. eauto.
Qed.
Lemma nbr_cable : forall dims s i dir, big_dims dims -> i < length dims -> dir < 2 ->
  cable dims s (nbr dims s i dir).
Proof.
  intros. exists (cnx dims s i dir). split; [|apply cnx_dst, big_nth; auto]. apply in_outports; eauto using big_pos.
Qed.

Lemma hops_lower : forall dims n s t, big_dims dims -> s < prod dims -> hops dims n s t ->
  minimal_distance dims s t <= n.
Proof.
  intros dims n s t B. pose proof (big_pos _ B) as P. intros L H. revert L. induction H; intros.
  - rewrite dist_refl; auto.
  - destruct (cable_nbr _ _ _ B H) as (i & dir & Hi & Hd & ->).
    specialize (IHhops (nbr_lt _ _ _ _ P Hi L)).
    pose proof (dist_nbr dims s t i dir P Hi).
    pose proof (sd_lip (nth i dims 0) (coord dims i s) (coord dims i t) dir
       (coord_lt' _ _ _ P Hi) (coord_lt' _ _ _ P Hi)). lia.
Qed.

Lemma hops_exist : forall dims, big_dims dims -> forall n s t, s < prod dims -> t < prod dims ->
  minimal_distance dims s t = n -> hops dims n s t.
Proof.
  intros dims B. pose proof (big_pos _ B) as P. induction n; intros.
  - apply dist_zero in H1; auto. subst. constructor.
  - assert (s <> t). { intro. subst s. rewrite dist_refl in H1; auto. discriminate. }
    destruct (hop_char dims s t hdr0 P H H0 H2) as (j & Hj & _ & _ & _ & _ & Hlt & Hd).
    cbv zeta in *. apply hops_S with (nbr dims s j (pdir (nth j dims 0) (coord dims j s) (coord dims j t))).
    apply nbr_cable; auto using pdir_lt. apply IHn; auto. lia.
Qed.

(** the trace of a walk visits cables: generic in the router *)
Lemma walk_hops : forall H dims (route : nat -> H -> outcome H) fuel s h tr e p,
  walk dims route fuel s h = Some (tr, e, p) -> hops dims (length tr) s e.
Proof.
  induction fuel; simpl; intros; [discriminate|].
  destruct (route s h) as [q|q vc h'|]; try discriminate.
  - injection H0; intros; subst. constructor.
  - destruct (next_switch dims s q) as [s'|] eqn:N; try discriminate.
    destruct (walk dims route fuel s' h') as [[[tr' e'] p']|] eqn:W; try discriminate.
    injection H0; intros; subst. simpl. econstructor; [|eapply IHfuel; eauto].
    unfold next_switch in N. destruct (find _ _) as [c|] eqn:F; try discriminate.
    destruct (_ && _)%bool eqn:G in N; try discriminate. injection N; intros; subst.
    apply andb_true_iff in G. destruct G as [G _]. apply Z.leb_le in G.
    exists c. split. eapply find_some; eauto. rewrite Z2Nat.id; auto.
Qed.

(** ** C16: the rank of a channel *)
Definition wraps (d dir x : nat) : bool := if dir =? 0 then x =? d - 1 else x =? 0.
Definition progress (d dir x : nat) : nat := if dir =? 0 then x else d - 1 - x.
(** (dimension, position within the dimension's two-lane spiral) *)
Definition crank (dims : list nat) (c : chan) : nat * nat :=
  let i := ch_port c / 2 in let dir := ch_port c mod 2 in
  let d := nth i dims 0 in let x := coord dims i (ch_switch c) in
  (i, if (ch_vc c =? 1) && negb (wraps d dir x) then d + progress d dir x else progress d dir x).
Definition lex (a b : nat * nat) : Prop := fst a < fst b \/ fst a = fst b /\ snd a < snd b.

Lemma lex_trans : forall a b c, lex a b -> lex b c -> lex a c.
Proof. unfold lex; intros; lia. Qed.
Lemma lex_irr : forall a, ~ lex a a.
Proof. unfold lex; intros; lia. Qed.
Lemma ranked_acyclic : forall A (dep : A -> A -> Prop) (r : A -> nat * nat),
  (forall a b, dep a b -> lex (r a) (r b)) -> deadlock_free dep.
Proof.
  unfold deadlock_free. intros A dep r Hr c Hc.
  assert (forall a b, clos_trans A dep a b -> lex (r a) (r b)).
  { induction 1; eauto using lex_trans. }
  exact (lex_irr _ (H _ _ Hc)).
Qed.

Lemma port_div : forall i dir, dir < 2 -> to_port i dir / 2 = i.
Proof. intros. unfold to_port. rewrite Nat.mul_comm, Nat.add_comm, Nat.div_add by lia. rewrite Nat.div_small; lia. Qed.
Lemma port_mod : forall i dir, dir < 2 -> to_port i dir mod 2 = dir.
Proof. intros. unfold to_port. rewrite Nat.mul_comm, Nat.add_comm, Nat.mod_add by lia. apply Nat.mod_small; lia. Qed.

(** what a hop does to the header *)
Definition same_dim (dim : nat) (h : hdr) : bool := (Z.of_nat dim =? h_last h)%Z.
Lemma path_hdr : forall dir dim d x h, dir < 2 -> x < d -> 
  path dir dim d x h =
    (let c := wraps d dir x || (same_dim dim h && h_crossed h) in
     Hdr (to_port dim dir) (if c then 1 else 0) c (to_char dim)).
Proof.
  intros. unfold path, up_path, down_path, wraps, same_dim. destruct dir as [|[|]]; try lia; simpl.
  - destruct (Z.eqb_spec (Z.of_nat x) (Z.of_nat d - 1)), (Nat.eqb_spec x (d - 1)); try lia; auto.
    destruct (Z.of_nat dim =? h_last h)%Z; auto.
  - destruct (x =? 0); auto. destruct (Z.of_nat dim =? h_last h)%Z; auto.
Qed.
Lemma to_char_small : forall i, i < 128 -> to_char i = Z.of_nat i.
Proof. intros. unfold to_char. rewrite Z.mod_small by lia. lia. Qed.

(** A packet that has crossed the dateline of the dimension it is travelling in has no
    further dateline to cross in it. *)
Definition crossed_ok (dims : list nat) (s t : nat) (h : hdr) : Prop :=
  h_crossed h = true -> forall i, i < length dims -> h_last h = Z.of_nat i ->
  coord dims i s = coord dims i t \/
  (let d := nth i dims 0 in let dir := pdir d (coord dims i s) (coord dims i t) in
   progress d dir (coord dims i s) < progress d dir (coord dims i t)).

Lemma pdir_stable : forall d x y, x < d -> y < d -> x <> y -> mv d (pdir d x y) x <> y ->
  pdir d (mv d (pdir d x y) x) y = pdir d x y.
Proof.
  intros d x y H H0 H1.
  assert (Hp : pdir d x y = 0 /\ up_distance d x y <= down_distance d x y \/
               pdir d x y = 1 /\ down_distance d x y < up_distance d x y).
  { unfold pdir, shortest_path_positive.
    destruct (Nat.leb_spec (up_distance d x y) (down_distance d x y)); auto. }
  destruct Hp as [[-> L]|[-> L]]; unfold mv, up1, down1; cbn [Nat.eqb]; intro H2;
  unfold pdir, shortest_path_positive; unfold up_distance, down_distance in *; sdcases.
Qed.
Lemma wrap_progress : forall d dir x, dir < 2 -> x < d -> wraps d dir x = true ->
  progress d dir x = d - 1 /\ progress d dir (mv d dir x) = 0.
Proof.
  unfold wraps, progress, mv, up1, down1. intros. destruct dir as [|[|]]; simpl in *; try lia.
  - apply Nat.eqb_eq in H1. subst. rewrite Nat.eqb_refl. lia.
  - apply Nat.eqb_eq in H1. subst. simpl. lia.
Qed.
Lemma nowrap_progress : forall d dir x, dir < 2 -> x < d -> wraps d dir x = false ->
  progress d dir (mv d dir x) = progress d dir x + 1 /\ progress d dir x < d - 1.
Proof.
  unfold wraps, progress, mv, up1, down1. intros. destruct dir as [|[|]]; simpl in *; try lia;
  apply Nat.eqb_neq in H1.
  - destruct (Nat.eqb_spec x (d-1)); lia.
  - destruct (Nat.eqb_spec x 0); lia.
Qed.
Lemma progress_lt : forall d dir x, x < d -> progress d dir x < d.
Proof. unfold progress; intros; destruct (dir =? 0); lia. Qed.
Lemma progress_inj : forall d dir x y, x < d -> y < d -> progress d dir x = progress d dir y -> x = y.
Proof. unfold progress; intros; destruct (dir =? 0); lia. Qed.

Lemma crossed_step : forall dims s t h j, length dims <= 128 -> pos_dims dims ->
  let d := nth j dims 0 in let x := coord dims j s in let y := coord dims j t in
  let dir := pdir d x y in
  j < length dims -> x <> y -> crossed_ok dims s t h ->
  crossed_ok dims (nbr dims s j dir) t (path dir j d x h).
Proof.
  intros dims s t h j L P d x y dir Hj Hne Hok Hc i Hi Hl.
  assert (Hx : x < d) by (apply coord_lt'; auto). assert (Hy : y < d) by (apply coord_lt'; auto).
  assert (Hd := pdir_lt d x y). fold dir in Hd.
  rewrite path_hdr in Hc, Hl by auto. cbn [h_crossed h_last] in Hc, Hl.
  rewrite to_char_small in Hl by lia. assert (j = i) by lia. subst i. clear Hl.
  rewrite nbr_coord, Nat.eqb_refl by auto. fold d x y.
  destruct (Nat.eq_dec (mv d dir x) y) as [E|E]; [left; auto|right].
  cbv zeta. assert (Hst : pdir d (mv d dir x) y = dir) by (apply pdir_stable; auto).
  rewrite Hst.
  assert (Hm : mv d dir x < d) by (apply mv_lt; auto).
  destruct (wraps d dir x) eqn:W.
  - destruct (wrap_progress d dir x Hd Hx W) as [_ H0]. rewrite H0.
    destruct (Nat.eq_dec (progress d dir y) 0); try lia.
    exfalso. apply E. apply progress_inj with d dir; auto. lia.
  - simpl in Hc. apply andb_true_iff in Hc. destruct Hc as [Hs Hc].
    unfold same_dim in Hs. apply Z.eqb_eq in Hs.
    destruct (Hok Hc j Hj (eq_sym Hs)) as [Heq|Hlt]; [contradiction (Hne Heq)|].
    cbv zeta in Hlt. fold d x y dir in Hlt.
    destruct (nowrap_progress d dir x Hd Hx W).
    destruct (Nat.eq_dec (progress d dir (mv d dir x)) (progress d dir y)); try lia.
    exfalso. apply E. apply progress_inj with d dir; auto.
Qed.

Definition hopc s (h : hdr) := Chan s (h_port h) (h_vc h).

Lemma crank_path : forall dims s dir j h, dir < 2 -> pos_dims dims -> j < length dims ->
  let d := nth j dims 0 in let x := coord dims j s in
  crank dims (hopc s (path dir j d x h)) =
  (j, if wraps d dir x then d - 1
      else if same_dim j h && h_crossed h then d + progress d dir x else progress d dir x).
Proof.
  intros. assert (Hx : x < d) by (apply coord_lt'; auto).
  unfold crank, hopc. cbn [ch_switch ch_port ch_vc]. rewrite path_port by auto.
  rewrite port_div, port_mod by auto. fold d x. f_equal.
  rewrite path_hdr by auto. cbn [h_vc].
  destruct (wraps d dir x) eqn:W; simpl.
  - destruct (wrap_progress d dir x H Hx W). lia.
  - destruct (same_dim j h && h_crossed h); auto.
Qed.

Lemma ring_two : forall d dir x y (c : bool), dir < 2 -> x < d -> y < d -> mv d dir x <> y ->
  (c = true -> progress d dir x < progress d dir y) -> 2 <= d ->
  (if wraps d dir x then d - 1 else if c then d + progress d dir x else progress d dir x) <
  (if wraps d dir (mv d dir x) then d - 1
   else if wraps d dir x || c then d + progress d dir (mv d dir x) else progress d dir (mv d dir x)).
Proof.
  intros d dir x y c Hd Hx Hy Hne2 Hc H2. assert (Hm : mv d dir x < d) by (apply mv_lt; auto).
  destruct (wraps d dir x) eqn:W; cbn [orb].
  - destruct (wrap_progress d dir x Hd Hx W) as [_ H0].
    destruct (wraps d dir (mv d dir x)) eqn:W2; [|lia].
    exfalso. destruct (wrap_progress d dir _ Hd Hm W2) as [H1 _]. lia.
  - destruct (nowrap_progress d dir x Hd Hx W) as [H0 H1].
    destruct c.
    + specialize (Hc eq_refl).
      destruct (wraps d dir (mv d dir x)) eqn:W2; [|lia].
      exfalso. destruct (wrap_progress d dir _ Hd Hm W2) as [H3 _].
      apply Hne2. apply progress_inj with d dir; auto.
      pose proof (progress_lt d dir y Hy). lia.
    + destruct (wraps d dir (mv d dir x)) eqn:W2; lia.
Qed.

Lemma two_hops : forall dims s t h, length dims <= 128 -> pos_dims dims ->
  forall j j2 d x y dir s1 h1 d2 x2 y2 dir2 h2,
  d = nth j dims 0 -> x = coord dims j s -> y = coord dims j t -> dir = pdir d x y ->
  s1 = nbr dims s j dir -> h1 = path dir j d x h ->
  j < length dims -> x <> y -> (forall k, k < j -> coord dims k s = coord dims k t) ->
  crossed_ok dims s t h ->
  d2 = nth j2 dims 0 -> x2 = coord dims j2 s1 -> y2 = coord dims j2 t ->
  dir2 = pdir d2 x2 y2 -> h2 = path dir2 j2 d2 x2 h1 ->
  j2 < length dims -> x2 <> y2 -> 
  lex (crank dims (hopc s h1)) (crank dims (hopc s1 h2)).
Proof.
  intros dims s t h L B j j2 d x y dir s1 h1 d2 x2 y2 dir2 h2 Ed Ex Ey Edir Es1 Eh1 Hj Hne Hpre Hok
    Ed2 Ex2 Ey2 Edir2 Eh2 Hj2 Hne2. assert (P := B).
  assert (Hx : x < d) by (subst; apply coord_lt'; auto).
  assert (Hy : y < d) by (subst; apply coord_lt'; auto).
  assert (Hd : dir < 2) by (subst dir; apply pdir_lt).
  assert (Hd2 : dir2 < 2) by (subst dir2; apply pdir_lt).
  assert (R1 := crank_path dims s dir j h Hd P Hj). cbv zeta in R1. rewrite <- Ed, <- Ex, <- Eh1 in R1.
  assert (R2 := crank_path dims s1 dir2 j2 h1 Hd2 P Hj2). cbv zeta in R2.
  rewrite <- Ed2, <- Ex2, <- Eh2 in R2. rewrite R1, R2.
  assert (Hx2 : x2 = if j2 =? j then mv d dir x else coord dims j2 s).
  { subst x2 s1 d x. apply nbr_coord; auto. }
  destruct (Nat.lt_trichotomy j j2) as [C|[C|C]].
  - left. simpl. auto.
  - subst j2. rewrite Nat.eqb_refl in Hx2. right. cbn [fst snd]. split; auto.
    assert (d2 = d) by congruence. assert (y2 = y) by congruence. clear Ed2 Ey2 Ex2 R1 R2. subst d2 y2 x2.
    assert (Hdir : dir2 = dir). { rewrite Edir2. rewrite Edir in Hne2 |- *. apply pdir_stable; auto. }
    rewrite Hdir.
    assert (Hs1 : same_dim j h1 = true).
    { subst h1. rewrite path_hdr by auto. unfold same_dim. cbn [h_last].
      rewrite to_char_small by lia. apply Z.eqb_refl. }
    rewrite Hs1. subst h1. rewrite path_hdr by auto. cbn [h_crossed andb].
    apply ring_two with y; auto.
    + intro C. apply andb_true_iff in C. destruct C as [Cs Cc]. unfold same_dim in Cs. apply Z.eqb_eq in Cs.
      destruct (Hok Cc j Hj (eq_sym Cs)) as [Heq|Hlt]; [congruence|].
      cbv zeta in Hlt. rewrite <- Ed, <- Ex, <- Ey, <- Edir in Hlt. auto.
    + lia.
  - exfalso. apply Hne2. destruct (Nat.eqb_spec j2 j); try lia. rewrite Hx2, Ey2. apply Hpre. auto.
Qed.

Lemma consecutive_cons : forall A (x : A) l a b, consecutive (x :: l) a b ->
  (exists post, l = b :: post /\ a = x) \/ consecutive l a b.
Proof.
  intros A x l a b (pre & post & E). destruct pre; simpl in E; injection E; intros; subst.
  - left; eauto.
  - right. exists pre, post. auto.
Qed.

Lemma walk_ranked : forall dims conc nid, pos_dims dims -> length dims <= 128 -> nid / conc < prod dims ->
  forall fuel s h tr e p, s < prod dims -> crossed_ok dims s (nid / conc) h ->
  walk dims (fun my h => torus_route dims conc my nid h) fuel s h = Some (tr, e, p) ->
  forall a b, consecutive tr a b -> lex (crank dims a) (crank dims b).
Proof.
  intros dims conc nid B L T. pose proof B as P.
  induction fuel; intros s h tr e p Hs Hok Hw a b Hab; [discriminate|].
  cbn [walk] in Hw. unfold torus_route at 1 in Hw.
  destruct (Nat.eqb_spec (nid / conc) s).
  { injection Hw; intros; subst. destruct Hab as (pre & post & E). destruct pre; discriminate. }
  destruct (hop_char dims s (nid / conc) h B Hs T ltac:(auto)) as (j & Hj & Hpre & Hne & Hr & Hn & Hlt & _).
  cbv zeta in *. rewrite Hr, Hn in Hw.
  pose proof (crossed_step dims s (nid / conc) h j L P Hj Hne Hok) as Hok'. cbv zeta in Hok'.
  set (dir := pdir (nth j dims 0) (coord dims j s) (coord dims j (nid / conc))) in *.
  set (h' := path dir j (nth j dims 0) (coord dims j s) h) in *.
  destruct (walk dims _ fuel (nbr dims s j dir) h') as [[[tr' e'] p']|] eqn:W; try discriminate.
  injection Hw; intros; subst tr e' p'.
  apply consecutive_cons in Hab. destruct Hab as [(post & E & ->)|Hab].
  - destruct fuel; [discriminate|]. cbn [walk] in W. unfold torus_route at 1 in W.
    destruct (Nat.eqb_spec (nid / conc) (nbr dims s j dir)).
    { injection W; intros; subst. discriminate. }
    destruct (hop_char dims (nbr dims s j dir) (nid / conc) h' B Hlt T ltac:(auto))
      as (j2 & Hj2 & Hpre2 & Hne2 & Hr2 & Hn2 & Hlt2 & _).
    cbv zeta in *. rewrite Hr2, Hn2 in W.
    match type of W with context [walk ?a ?b ?c ?d ?e] => destruct (walk a b c d e) as [[[? ?] ?]|] eqn:W3; try discriminate end.
    injection W; intros; subst. injection H1; intros; subst.
    eapply two_hops with (s := s) (t := nid / conc) (h := h) (j := j) (j2 := j2); try reflexivity; auto.
  - eapply IHfuel; eauto.
Qed.

Lemma minimal_deadlock_free : forall dims conc, pos_dims dims -> length dims <= 128 ->
  deadlock_free (waits_for dims conc hdr0 (minimal_policy dims conc)).
Proof.
  intros. apply ranked_acyclic with (crank dims).
  intros a b (s & nid & r & fuel & tr & e & p & Hs & Ht & Hr & Hw & Hab).
  unfold minimal_policy in Hr. subst r.
  apply (walk_ranked dims conc nid H H0 Ht fuel s hdr0 tr e p Hs); auto.
  unfold crossed_ok. intro X. simpl in X. discriminate X.
Qed.

(** ** Positive router *)
Fixpoint positive' (i : nat) (dims : list nat) (src dst : nat) (wrapped : bool)
  : option (nat * nat * bool) :=
  match dims with
  | [] => None
  | d :: r =>
      if negb (src mod d =? dst mod d) then
        let '(w, vc) := if (Z.of_nat (src mod d) =? Z.of_nat d - 1)%Z then (true, 1)
                        else (wrapped, if wrapped then 1 else 0) in
        Some (to_port i 0, vc, if (src mod d + 1) mod d =? dst mod d then false else w)
      else positive' (S i) r (src / d) (dst / d) wrapped
  end.
Lemma positive_loop_eq : forall dims i div s t h, 0 < div -> pos_dims dims ->
  positive_loop i div dims s t h = positive' i dims (s / div) (t / div) h.
Proof.
  induction dims; intros; simpl; auto. inversion H0; subst.
  rewrite IHdims by (auto; nia). rewrite !Nat.div_div by lia. auto.
Qed.
Definition ppath (dim d x y : nat) (w : bool) : nat * nat * bool :=
  let c := wraps d 0 x || w in
  (to_port dim 0, if c then 1 else 0, if mv d 0 x =? y then false else c).
Lemma positive'_char : forall dims i s t h, pos_dims dims -> s < prod dims -> t < prod dims -> s <> t ->
  exists j, j < length dims /\ (forall k, k < j -> coord dims k s = coord dims k t) /\
    coord dims j s <> coord dims j t /\
    positive' i dims s t h =
      Some (ppath (i + j) (nth j dims 0) (coord dims j s) (coord dims j t) h).
Proof.
  induction dims; intros; simpl in *; [lia|]. inversion H; subst.
  destruct (Nat.eqb_spec (s mod a) (t mod a)); simpl.
  - assert (s / a <> t / a).
    { intro. pose proof (Nat.div_mod s a ltac:(lia)). pose proof (Nat.div_mod t a ltac:(lia)). nia. }
    destruct (IHdims (S i) (s / a) (t / a) h H6 ltac:(apply div_lt; lia) ltac:(apply div_lt; lia) H3)
      as (j & Hj & Heq & Hne & Hr).
    exists (S j). repeat split; try lia.
    + intros k Hk. destruct k. rewrite !coord_0; auto. rewrite !coord_S. apply Heq; lia.
    + rewrite !coord_S. auto.
    + rewrite Hr, !coord_S. replace (i + S j) with (S i + j) by lia. auto.
  - exists 0. rewrite !coord_0. repeat split; try lia. auto.
    rewrite Nat.add_0_r. unfold ppath, wraps, mv, up1. cbn [Nat.eqb].
    assert (s mod a < a) by (apply Nat.mod_upper_bound; lia).
    assert (E : (s mod a + 1) mod a = if s mod a =? a - 1 then 0 else s mod a + 1).
    { destruct (Nat.eqb_spec (s mod a) (a - 1)).
      - replace (s mod a + 1) with (1 * a) by lia. apply Nat.mod_mul; lia.
      - apply Nat.mod_small; lia. }
    rewrite E.
    destruct (Z.eqb_spec (Z.of_nat (s mod a)) (Z.of_nat a - 1)), (Nat.eqb_spec (s mod a) (a - 1)); try lia; auto.
Qed.
Definition pd (d x y : nat) := (y + d - x) mod d.
Lemma positive_distance_eq : forall dims s t, pos_dims dims ->
  positive_distance dims s t = sumd pd dims s t.
Proof.
  intros. unfold positive_distance. rewrite !switch_coords_eq by auto.
  clear H. revert s t. induction dims; intros; auto. cbn [coords combine map sumd]. 
  rewrite <- IHdims. reflexivity.
Qed.
Lemma pd_val : forall d x y, x < d -> y < d -> pd d x y = if x <=? y then y - x else y + d - x.
Proof.
  unfold pd; intros. destruct (Nat.leb_spec x y).
  - replace (y + d - x) with (y - x + 1 * d) by lia. rewrite Nat.mod_add, Nat.mod_small by lia. auto.
  - apply Nat.mod_small; lia.
Qed.
Lemma pd_toward : forall d x y, x < d -> y < d -> x <> y -> pd d (mv d 0 x) y + 1 = pd d x y.
Proof.
  intros. pose proof (mv_lt d 0 x H). rewrite !pd_val by auto. clear H2.
  unfold mv, up1. cbn [Nat.eqb]. sdcases.
Qed.
Lemma sumd_zero : forall f dims s t, (forall d x y, x < d -> y < d -> f d x y = 0 -> x = y) ->
  pos_dims dims -> s < prod dims -> t < prod dims -> sumd f dims s t = 0 -> s = t.
Proof.
  intros f dims s t Hf H H0 H1 H2. revert s t H0 H1 H2.
  induction dims; intros; simpl in *; [lia|]. inversion H; subst.
  assert (s mod a = t mod a).
  { apply Hf with a; try (apply Nat.mod_upper_bound; lia). lia. }
  assert (s / a = t / a). { apply IHdims; auto; try (apply div_lt; lia). lia. }
  pose proof (Nat.div_mod s a ltac:(lia)). pose proof (Nat.div_mod t a ltac:(lia)). nia.
Qed.
Lemma pd_refl : forall dims s, pos_dims dims -> sumd pd dims s s = 0.
Proof.
  induction dims; intros; simpl; auto. inversion H; subst. rewrite IHdims by auto.
  rewrite pd_val by (apply Nat.mod_upper_bound; lia). rewrite Nat.leb_refl. lia.
Qed.

Lemma pos_hop : forall dims s t w, pos_dims dims -> s < prod dims -> t < prod dims -> s <> t ->
  exists j, let d := nth j dims 0 in let x := coord dims j s in let y := coord dims j t in
    j < length dims /\ (forall k, k < j -> coord dims k s = coord dims k t) /\ x <> y /\
    positive_loop 0 1 dims s t w = Some (ppath j d x y w) /\
    next_switch dims s (to_port j 0) = Some (nbr dims s j 0) /\
    nbr dims s j 0 < prod dims /\
    sumd pd dims (nbr dims s j 0) t + 1 = sumd pd dims s t.
Proof.
  intros. pose proof H as P.
  destruct (positive'_char dims 0 s t w P H0 H1 H2) as (j & Hj & Heq & Hne & Hr).
  exists j. cbv zeta. repeat split; auto.
  - rewrite positive_loop_eq by (auto; lia). rewrite !Nat.div_1_r. auto.
  - apply next_switch_eq; auto.
    pose proof (coord_lt' dims j s P Hj). pose proof (coord_lt' dims j t P Hj). lia.
  - apply nbr_lt; auto.
  - rewrite nbr_mv.
    pose proof (setc_sum pd dims j (nth j dims 0) (mv (nth j dims 0) 0 (coord dims j s)) s t
      (nth_dim _ _ Hj) P (mv_lt _ _ _ (coord_lt' _ _ _ P Hj))).
    pose proof (pd_toward (nth j dims 0) (coord dims j s) (coord dims j t)
       (coord_lt' _ _ _ P Hj) (coord_lt' _ _ _ P Hj) Hne). lia.
Qed.

Lemma walk_positive : forall dims conc nid, pos_dims dims -> nid / conc < prod dims ->
  forall n s h, s < prod dims -> sumd pd dims s (nid / conc) = n ->
  exists tr, walk dims (fun my h => positive_route dims conc my nid h) (S n) s h
     = Some (tr, nid / conc, nid mod conc + 2 * length dims) /\ length tr = n.
Proof.
  intros dims conc nid B T. pose proof B as P. induction n; intros.
  - apply sumd_zero in H0; auto.
    2:{ intros. rewrite pd_val in H3 by auto. destruct (Nat.leb_spec x y); lia. }
    subst s. exists []. simpl. unfold positive_route. rewrite Nat.eqb_refl. auto.
  - assert (s <> nid / conc). { intro. subst s. rewrite pd_refl in H0; auto. discriminate. }
    destruct (pos_hop dims s (nid / conc) h B H T H1) as (j & Hj & _ & _ & Hr & Hn & Hlt & Hd).
    cbv zeta in *. unfold ppath in Hr.
    match type of Hr with _ = Some (_, ?v, ?w) => set (vc := v) in *; set (w' := w) in * end.
    destruct (IHn (nbr dims s j 0) w' Hlt ltac:(lia)) as (tr & Hw & Hl).
    exists (Chan s (to_port j 0) vc :: tr). split; [|simpl; lia].
    cbn [walk]. unfold positive_route at 1.
    destruct (Nat.eqb_spec (nid / conc) s); try congruence.
    rewrite Hr, Hn. cbn [walk] in Hw. rewrite Hw. auto.
Qed.

Definition wrapped_ok dims s t (w : bool) : Prop :=
  w = true -> exists j, j < length dims /\ (forall k, k < j -> coord dims k s = coord dims k t) /\
    coord dims j s < coord dims j t.

Lemma crank_pos : forall dims s j w, pos_dims dims -> j < length dims ->
  let d := nth j dims 0 in let x := coord dims j s in
  crank dims (Chan s (to_port j 0) (if wraps d 0 x || w then 1 else 0)) =
  (j, if wraps d 0 x then d - 1 else if w then d + progress d 0 x else progress d 0 x).
Proof.
  intros. assert (Hx : x < d) by (apply coord_lt'; auto).
  unfold crank. cbn [ch_switch ch_port ch_vc]. rewrite port_div, port_mod by lia. fold d x. f_equal.
  destruct (wraps d 0 x) eqn:W; simpl.
  - destruct (wrap_progress d 0 x ltac:(lia) Hx W). lia.
  - destruct w; auto.
Qed.

Lemma walk_pos_ranked : forall dims conc nid, pos_dims dims -> nid / conc < prod dims ->
  forall fuel s w tr e p, s < prod dims -> wrapped_ok dims s (nid / conc) w ->
  walk dims (fun my h => positive_route dims conc my nid h) fuel s w = Some (tr, e, p) ->
  forall a b, consecutive tr a b -> lex (crank dims a) (crank dims b).
Proof.
  intros dims conc nid B T. pose proof B as P.
  induction fuel; intros s w tr e p Hs Hok Hw a b Hab; [discriminate|].
  cbn [walk] in Hw. unfold positive_route at 1 in Hw.
  destruct (Nat.eqb_spec (nid / conc) s).
  { injection Hw; intros; subst. destruct Hab as (pre & post & E). destruct pre; discriminate. }
  destruct (pos_hop dims s (nid / conc) w B Hs T ltac:(auto)) as (j & Hj & Hpre & Hne & Hr & Hn & Hlt & _).
  cbv zeta in *. unfold ppath in Hr. rewrite Hr, Hn in Hw.
  remember (nth j dims 0) as d eqn:Ed. remember (coord dims j s) as x eqn:Ex.
  remember (coord dims j (nid / conc)) as y eqn:Ey.
  assert (Hx : x < d) by (subst; apply coord_lt'; auto).
  assert (Hy : y < d) by (subst; apply coord_lt'; auto).
  assert (Hmv : mv d 0 x < d) by (apply mv_lt; auto).
  assert (Hd2 : 2 <= d) by lia.
  assert (Hxy : w = true -> x < y).
  { intro C. destruct (Hok C) as (i & Hi & Hip & Hil).
    destruct (Nat.lt_trichotomy i j) as [Q|[Q|Q]].
    - specialize (Hpre i Q). lia.
    - subst. auto.
    - specialize (Hip j Q). subst. congruence. }
  assert (Hco : forall k, coord dims k (nbr dims s j 0) = if k =? j then mv d 0 x else coord dims k s).
  { intro k. subst d x. apply nbr_coord; auto. }
  set (w' := if mv d 0 x =? y then false else wraps d 0 x || w) in *.
  assert (Hok' : wrapped_ok dims (nbr dims s j 0) (nid / conc) w').
  { unfold w'. intro C. destruct (Nat.eqb_spec (mv d 0 x) y); try discriminate.
    exists j. split; auto. split.
    - intros k Hk. rewrite Hco. destruct (Nat.eqb_spec k j); try lia. auto.
    - rewrite Hco, Nat.eqb_refl. rewrite <- Ey.
      apply orb_true_iff in C. destruct (wraps d 0 x) eqn:W.
      + destruct (wrap_progress d 0 x ltac:(lia) Hx W). unfold progress in *. simpl in *. lia.
      + destruct C as [C|C]; try discriminate.
        destruct (nowrap_progress d 0 x ltac:(lia) Hx W). unfold progress in *. simpl in *.
        specialize (Hxy C). lia. }
  destruct (walk dims _ fuel (nbr dims s j 0) w') as [[[tr' e'] p']|] eqn:W; try discriminate.
  injection Hw; intros; subst tr e' p'.
  apply consecutive_cons in Hab. destruct Hab as [(post & E & ->)|Hab].
  - destruct fuel; [discriminate|]. cbn [walk] in W. unfold positive_route at 1 in W.
    destruct (Nat.eqb_spec (nid / conc) (nbr dims s j 0)).
    { rewrite E in W. discriminate W. }
    destruct (pos_hop dims (nbr dims s j 0) (nid / conc) w' B Hlt T ltac:(auto))
      as (j2 & Hj2 & Hpre2 & Hne2 & Hr2 & Hn2 & Hlt2 & _).
    cbv zeta in *. unfold ppath in Hr2. rewrite Hr2, Hn2 in W.
    match type of W with context [walk ?a ?b ?c ?d ?e] => destruct (walk a b c d e) as [[[? ?] ?]|] eqn:W3; try discriminate end.
    rewrite E in W. injection W; intros; subst b. clear W.
    pose proof (crank_pos dims s j w P Hj) as R1. cbv zeta in R1. rewrite <- Ed, <- Ex in R1. rewrite R1.
    rewrite crank_pos by auto.
    destruct (Nat.lt_trichotomy j j2) as [C|[C|C]].
    + left. simpl. auto.
    + subst j2. right. cbn [fst snd]. split; auto.
      rewrite Hco, Nat.eqb_refl, <- Ey in Hne2.
      rewrite Hco, Nat.eqb_refl, <- Ed.
      assert (Ew : w' = wraps d 0 x || w).
      { unfold w'. destruct (Nat.eqb_spec (mv d 0 x) y); auto. contradiction. }
      rewrite Ew. apply ring_two with y; auto; try lia.
    + exfalso. apply Hne2. rewrite Hco. destruct (Nat.eqb_spec j2 j); try lia. apply Hpre; auto.
  - eapply IHfuel; eauto.
Qed.

Lemma positive_deadlock_free : forall dims conc, pos_dims dims ->
  deadlock_free (waits_for dims conc false (positive_policy dims conc)).
Proof.
  intros. apply ranked_acyclic with (crank dims).
  intros a b (s & nid & r & fuel & tr & e & p & Hs & Ht & Hr & Hw & Hab).
  unfold positive_policy in Hr. subst r.
  apply (walk_pos_ranked dims conc nid H Ht fuel s false tr e p Hs); auto.
  unfold wrapped_ok. discriminate.
Qed.
