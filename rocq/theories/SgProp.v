(** The scatter router delivers every packet. *)
From Coq Require Import List ZArith Arith Bool Lia.
From Verif Require Import TorusModel NetModel DfModel DfProof SgModel.
Import ListNotations.
Local Open Scope nat_scope.

(** A link of the topology. *)
Definition link (D : df) (s p t : nat) : Prop :=
  exists q, In (Conn s (Z.of_nat t) p q) (df_conns D s).

(** Where a packet from [src] to [dst] can be, and after how many hops. *)
Inductive trip (D : df) (src dst : nat) : nat -> nat -> Prop :=
  | trip_start : trip D src dst src 0
  | trip_hop s n p t : trip D src dst s n -> s <> dst ->
      In p (sg_route D src dst s n) -> link D s p t -> trip D src dst t (S n).

(** Any two groups have a link. *)
Definition groups_linked (D : df) : Prop :=
  forall g g', g < d_g D -> g' < d_g D -> g <> g' ->
  exists aa x, aa < d_a D /\ In x (d_conn D aa g) /\ df_G D x = g'.

(** Walks with at most one global link ([u]: it has been used). *)
Inductive walk (D : df) : nat -> bool -> nat -> nat -> Prop :=
  | walk_end u s : walk D 0 u s s
  | walk_local k u s t aa : aa < d_a D -> aa <> df_A D s ->
      walk D k u (df_uid D aa (df_G D s)) t -> walk D (S k) u s t
  | walk_global k s t c x : nth_error (d_conn D (df_A D s) (df_G D s)) c = Some x ->
      walk D k true x t -> walk D (S k) false s t.

Lemma walk_fresh : forall D k u s t, walk D k u s t -> walk D k false s t.
Proof.
  induction 1; [constructor|eapply walk_local; eauto|eapply walk_global; eauto].
Qed.

Definition good_port (D : df) (my p t : nat) : Prop := p < d_a D \/ df_G D t <> df_G D my.

Lemma good_port_b : forall D my p t,
  (p <? d_a D) || negb (df_G D t =? df_G D my) = true <-> good_port D my p t.
Proof.
  intros. unfold good_port. rewrite orb_true_iff, negb_true_iff, Nat.ltb_lt, Nat.eqb_neq. tauto.
Qed.

Definition used (gh : nat) : bool := negb (gh =? 0).

(** What the table builder does for one neighbour. *)
Definition help (D : df) (my f hops next p gh' : nat) : list (nat * nat * nat) :=
  (if (p <? d_a D) || negb (df_G D next =? df_G D my)
   then map (fun h => (h, next, p)) (seq (hops + 1) (3 - hops)) else [])
  ++ follow D my f next (hops + 1) gh' (Some p).

Lemma follow_S : forall D my f sid hops gh port,
  follow D my (S f) sid hops gh port =
  (if gh =? 0
   then flat_map (fun '(c, next) =>
          help D my f hops next (match port with None => c + d_a D | Some p => p end) (gh + 1))
        (indexed (d_conn D (df_A D sid) (df_G D sid)))
   else [])
  ++ flat_map (fun aa =>
       if aa =? df_A D sid then []
       else help D my f hops (df_uid D aa (df_G D sid)) (match port with None => aa | Some p => p end) gh)
     (seq 0 (d_a D)).
Proof. reflexivity. Qed.

(** The neighbours the builder visits. *)
Definition nbr (D : df) (sid gh : nat) (port : option nat) (next p gh' : nat) : Prop :=
  (exists aa, aa < d_a D /\ aa <> df_A D sid /\ next = df_uid D aa (df_G D sid) /\ gh' = gh /\
     p = match port with None => aa | Some q => q end) \/
  (gh = 0 /\ gh' = 1 /\ exists c, nth_error (d_conn D (df_A D sid) (df_G D sid)) c = Some next /\
     p = match port with None => c + d_a D | Some q => q end).

Lemma follow_nbr : forall D my f sid hops gh port e,
  In e (follow D my (S f) sid hops gh port) <->
  exists next p gh', nbr D sid gh port next p gh' /\ In e (help D my f hops next p gh').
Proof.
  intros. rewrite follow_S, in_app_iff. unfold nbr. split.
  - intros [H|H].
    + destruct (Nat.eqb_spec gh 0); [|destruct H]. apply in_flat_map in H.
      destruct H as ((c, next) & I & E). apply in_indexed in I.
      eexists _, _, _. split; [right|exact E]. subst. repeat split; auto. exists c. auto.
    + apply in_flat_map in H. destruct H as (aa & I & E). apply in_seq in I.
      destruct (Nat.eqb_spec aa (df_A D sid)); [destruct E|].
      eexists _, _, _. split; [left|exact E]. exists aa. repeat split; auto. lia.
  - intros (next & p & gh' & [N|N] & E).
    + right. destruct N as (aa & L & NA & -> & -> & ->). apply in_flat_map. exists aa.
      split; [apply in_seq; lia|]. destruct (Nat.eqb_spec aa (df_A D sid)); [contradiction|]. exact E.
    + left. destruct N as (-> & -> & c & I & ->). simpl. apply in_flat_map. exists (c, next).
      split; [apply in_indexed; auto|exact E].
Qed.

Lemma nbr_walk : forall D sid gh port next p gh' k t, nbr D sid gh port next p gh' ->
  walk D k (used gh') next t -> walk D (S k) (used gh) sid t.
Proof.
  intros D sid gh port next p gh' k t [N|N] W.
  - destruct N as (aa & L & NA & -> & -> & _). eapply walk_local; eauto.
  - destruct N as (-> & -> & c & I & _). eapply walk_global; eauto.
Qed.

Lemma help_in : forall D my f hops next p gh' h t q, In (h, t, q) (help D my f hops next p gh') <->
  (q = p /\ t = next /\ good_port D my p next /\ hops + 1 <= h /\ h <= 3 /\ hops < 3) \/
  In (h, t, q) (follow D my f next (hops + 1) gh' (Some p)).
Proof.
  intros. unfold help. rewrite in_app_iff. split; intros [H|H]; auto.
  - left. destruct ((p <? d_a D) || negb (df_G D next =? df_G D my)) eqn:B; [|destruct H].
    apply in_map_iff in H. destruct H as (h' & E & I). apply in_seq in I. injection E as <- <- <-.
    apply good_port_b in B. repeat split; auto; lia.
  - left. destruct H as (-> & -> & G & L1 & L2 & L3). apply good_port_b in G. rewrite G.
    apply in_map_iff. exists h. split; auto. apply in_seq. lia.
Qed.

(** The table holds the first ports of the walks, *)
Lemma follow_walk : forall D my f sid hops gh p h t q, f + hops = 3 ->
  (In (h, t, q) (follow D my f sid hops gh (Some p)) <->
   q = p /\ good_port D my p t /\ h <= 3 /\ exists k, 0 < k /\ hops + k <= h /\ walk D k (used gh) sid t).
Proof.
  induction f as [|f IH]; intros sid hops gh p h t q F.
  - simpl. split; [tauto|]. intros (_ & _ & L & k & K & L' & _). lia.
  - rewrite follow_nbr. split.
    + intros (next & p' & gh' & N & H). assert (p' = p) by (destruct N as [(? & ? & ? & ? & ? & ?)|(? & ? & ? & ? & ?)]; auto).
      subst p'. apply help_in in H. destruct H as [H|H].
      * destruct H as (-> & -> & G & L1 & L2 & L3). repeat split; auto. exists 1.
        split; [lia|]. split; [lia|]. eapply nbr_walk; eauto. constructor.
      * apply IH in H; [|lia]. destruct H as (-> & G & L & k & K & L' & W). repeat split; auto.
        exists (S k). split; [lia|]. split; [lia|]. eapply nbr_walk; eauto.
    + intros (-> & G & L & k & K & L' & W).
      assert (X : exists next gh' k', k = S k' /\ nbr D sid gh (Some p) next p gh' /\ walk D k' (used gh') next t).
      { inversion W as [u s E1 E2 E3|k' u s t' aa La Na W' E1 E2 E3|k' s t' c x I W' E1 E2 E3]; subst.
        - lia.
        - eexists _, gh, k'. split; auto. split; [left|exact W']. exists aa. auto.
        - exists x, 1, k'. split; auto. split; [right|exact W'].
          assert (gh = 0) by (unfold used in E2; destruct gh; auto; discriminate).
          repeat split; auto. exists c. auto. }
      destruct X as (next & gh' & k' & -> & N & W'). exists next, p, gh'. split; auto.
      apply help_in. destruct k' as [|k'].
      * left. inversion W'; subst. repeat split; auto; lia.
      * right. apply IH; [lia|]. repeat split; auto. exists (S k'). repeat split; auto; lia.
Qed.

(** and so do the sets of ports. *)
Lemma ports_walk : forall D my h t p, In p (sg_ports D my h t) <->
  good_port D my p t /\ h <= 3 /\ exists next gh' k,
    nbr D my 0 None next p gh' /\ walk D k (used gh') next t /\ S k <= h.
Proof.
  intros. unfold sg_ports. rewrite in_flat_map. split.
  - intros ([[h' sid] q] & I & E). destruct ((h' =? h) && (sid =? t)) eqn:B; [|destruct E].
    apply andb_true_iff in B. rewrite !Nat.eqb_eq in B. destruct B as (-> & ->).
    destruct E as [->|[]]. apply follow_nbr in I. destruct I as (next & p' & gh' & N & H).
    apply help_in in H. destruct H as [H|H].
    + destruct H as (-> & -> & G & L1 & L2 & _). repeat split; auto.
      exists next, gh', 0. repeat split; auto. constructor.
    + apply follow_walk in H; [|lia]. destruct H as (-> & G & L & k & K & L' & W). repeat split; auto.
      exists next, gh', k. repeat split; auto.
  - intros (G & L & next & gh' & k & N & W & K). exists (h, t, p). split.
    + apply follow_nbr. exists next, p, gh'. split; auto. apply help_in. destruct k as [|k].
      * left. inversion W; subst. repeat split; auto; lia.
      * right. apply follow_walk; [lia|]. repeat split; auto. exists (S k). repeat split; auto; lia.
    + rewrite !Nat.eqb_refl. left. auto.
Qed.

Section Switch.
  Variable D : df.
  Hypothesis A0 : 0 < d_a D.

  Lemma uid_A : forall aa g, aa < d_a D -> df_A D (df_uid D aa g) = aa.
  Proof. intros. unfold df_A, df_uid. rewrite Nat.mod_add by lia. apply Nat.mod_small; auto. Qed.

  Lemma uid_G : forall aa g, aa < d_a D -> df_G D (df_uid D aa g) = g.
  Proof. intros. unfold df_G, df_uid. rewrite Nat.div_add by lia. rewrite Nat.div_small; auto. Qed.

  Lemma uid_AG : forall s, df_uid D (df_A D s) (df_G D s) = s.
  Proof. intros. unfold df_uid, df_A, df_G. pose proof (Nat.div_mod s (d_a D) ltac:(lia)). lia. Qed.

  Lemma A_lt : forall s, df_A D s < d_a D.
  Proof. intros. apply Nat.mod_upper_bound. lia. Qed.

  (** A used walk stays in its group. *)
  Lemma walk_group : forall k s t, walk D k true s t -> df_G D t = df_G D s.
  Proof.
    intros k s t W. remember true as u eqn:U. revert U. induction W; intros U; auto; [|discriminate].
    rewrite (IHW U). apply uid_G. auto.
  Qed.

  Lemma direct : forall s t h, s <> t -> df_G D s = df_G D t -> 1 <= h <= 3 ->
    In (df_A D t) (sg_ports D s h t).
  Proof.
    intros s t h N G H. apply ports_walk. split; [left; apply A_lt|]. split; [lia|].
    assert (df_A D t <> df_A D s) by (intro E; apply N; rewrite <- (uid_AG s), <- (uid_AG t); congruence).
    exists t, 0, 0. split; [left|split; [constructor|lia]].
    exists (df_A D t). repeat split; auto; [apply A_lt|]. rewrite G. symmetry. apply uid_AG.
  Qed.

  (** A walk gives a port. *)
  Lemma walk_port : forall k s t h, s <> t -> walk D k false s t -> k <= h -> h <= 3 ->
    exists p, In p (sg_ports D s h t).
  Proof.
    intros k s t h N W K H. destruct (Nat.eq_dec (df_G D s) (df_G D t)) as [E|E].
    - assert (k <> 0) by (intro; subst; inversion W; subst; congruence).
      eexists. apply direct; auto. lia.
    - inversion W as [u s' E1 E2 E3|k' u s' t' aa La Na W' E1 E2 E3|k' s' t' c x I W' E1 E2 E3]; subst.
      + congruence.
      + exists aa. apply ports_walk. split; [left; auto|]. split; auto.
        exists (df_uid D aa (df_G D s)), 0, k'. split; [left; exists aa; auto|]. split; auto.
      + exists (c + d_a D). apply ports_walk. split; [right; auto|]. split; auto.
        exists x, 1, k'. split; [right; repeat split; exists c; auto|]. split; auto.
  Qed.

  (** Every port in a set is wired, and the switch behind it is nearer. *)
  Lemma port_link : forall s t h p, In p (sg_ports D s h t) ->
    exists s', link D s p s' /\ exists k, walk D k false s' t /\ S k <= h.
  Proof.
    intros s t h p H. apply ports_walk in H. destruct H as (G & L & next & gh' & k & N & W & K).
    exists next. split; [|exists k; split; auto; eapply walk_fresh; eauto].
    unfold link, df_conns. destruct N as [N|N].
    - destruct N as (aa & La & Na & -> & -> & ->). exists (df_A D s).
      apply in_app_iff. left. apply in_flat_map. exists aa. split; [apply in_seq; lia|].
      destruct (Nat.eqb_spec aa (df_A D s)); [contradiction|]. left. auto.
    - destruct N as (_ & -> & c & I & ->). destruct G as [G|G]; [lia|].
      pose proof (walk_group _ _ _ W) as E.
      eexists. apply in_app_iff. right. apply in_flat_map. exists (c, next).
      split; [apply in_indexed; auto|].
      destruct (Nat.eqb_spec (df_G D next) (df_G D s)); [congruence|]. left. reflexivity.
  Qed.

  (** A port leads to one switch. *)
  Lemma link_fun : forall s p t t', link D s p t -> link D s p t' -> t = t'.
  Proof.
    intros s p t t' (q & H) (q' & H'). unfold df_conns in *.
    assert (X : forall t q, In (Conn s (Z.of_nat t) p q)
      (flat_map (fun a => if a =? df_A D s then [] else [Conn s (Z.of_nat (df_uid D a (df_G D s))) a (df_A D s)])
         (seq 0 (d_a D)) ++
       flat_map (fun '(h, dst) => if df_G D dst =? df_G D s then []
         else [Conn s (Z.of_nat dst) (h + d_a D)
                (d_in D (df_A D s) (df_G D s) h (df_A D dst) (df_G D dst) + d_a D)])
         (indexed (d_conn D (df_A D s) (df_G D s)))) ->
      (p < d_a D /\ t = df_uid D p (df_G D s)) \/
      (exists c, p = c + d_a D /\ nth_error (d_conn D (df_A D s) (df_G D s)) c = Some t)).
    { clear. intros t q H. apply in_app_iff in H. destruct H as [H|H]; apply in_flat_map in H.
      - destruct H as (a & I & E). apply in_seq in I. destruct (a =? df_A D s); [destruct E|].
        destruct E as [E|[]]. injection E as E1 E2 E3. subst. left. split; [lia|].
        apply Nat2Z.inj. auto.
      - destruct H as ((c, x) & I & E). apply in_indexed in I. destruct (df_G D x =? df_G D s); [destruct E|].
        destruct E as [E|[]]. injection E as E1 E2 E3. right. exists c. split; [lia|].
        apply Nat2Z.inj in E1. congruence. }
    apply X in H. apply X in H'.
    destruct H as [(L & ->)|(c & E & I)]; destruct H' as [(L' & ->)|(c' & E' & I')]; try lia; auto.
    assert (c = c') by lia. subst c'. congruence.
  Qed.

  (** What is left of the way. *)
  Lemma trip_inv : forall src dst, groups_linked D -> df_G D src < d_g D -> df_G D dst < d_g D ->
    forall s n, trip D src dst s n ->
    exists k, walk D k false s dst /\ n + k <= sg_max D src dst.
  Proof.
    intros src dst GL Ls Ld s n T. induction T as [|s n p t T (k & W & K) N P LK].
    - unfold sg_max. destruct (Nat.eqb_spec (df_G D src) (df_G D dst)) as [E|E].
      + destruct (Nat.eq_dec src dst) as [->|N]; [exists 0; split; [constructor|lia]|].
        exists 1. split; [|lia]. apply walk_local with (df_A D dst); [apply A_lt| |].
        * intro X. apply N. rewrite <- (uid_AG src), <- (uid_AG dst). congruence.
        * rewrite E, uid_AG. constructor.
      + destruct (GL _ _ Ls Ld E) as (aa & x & La & I & GX). apply In_nth_error in I. destruct I as (c & I).
        assert (W3 : exists k, walk D k true x dst /\ k <= 1).
        { destruct (Nat.eq_dec x dst) as [->|N]; [exists 0; split; [constructor|lia]|].
          exists 1. split; [|lia]. apply walk_local with (df_A D dst); [apply A_lt| |].
          - intro X. apply N. rewrite <- (uid_AG x), <- (uid_AG dst). congruence.
          - rewrite GX, uid_AG. constructor. }
        destruct W3 as (k & W & K).
        destruct (Nat.eq_dec aa (df_A D src)) as [->|NA].
        * exists (S k). split; [eapply walk_global; eauto|lia].
        * exists (S (S k)). split; [|lia]. eapply walk_local; eauto. eapply walk_global; eauto.
          rewrite uid_A, uid_G; eauto.
    - destruct (port_link _ _ _ _ P) as (t' & LK' & k' & W' & K').
      rewrite (link_fun _ _ _ _ LK LK'). exists k'. split; auto. lia.
  Qed.
End Switch.

(** * C157 *)

(** At every switch on its way a packet finds a port, every port it may find
    is wired, and it makes each hop on a higher virtual channel than the hops
    before, of which there are three. *)
Theorem scatter_goes_on : forall D src dst s n,
  0 < d_a D -> groups_linked D -> df_G D src < d_g D -> df_G D dst < d_g D ->
  trip D src dst s n -> s <> dst ->
  sg_vc n < 3 /\ (forall m, m < n -> sg_vc m < sg_vc n) /\ sg_route D src dst s n <> [] /\
  forall p, In p (sg_route D src dst s n) -> exists t, link D s p t.
Proof.
  intros D src dst s n A0 GL Ls Ld T N.
  destruct (trip_inv D A0 src dst GL Ls Ld s n T) as (k & W & K).
  assert (k <> 0) by (intro; subst; inversion W; subst; congruence).
  assert (M : sg_max D src dst <= 3) by (unfold sg_max; destruct (_ =? _); lia).
  split; [unfold sg_vc; lia|]. split; [unfold sg_vc; lia|]. split.
  - destruct (walk_port D A0 k s dst (sg_max D src dst - n) N W ltac:(lia) ltac:(lia)) as (p & P).
    unfold sg_route. destruct (sg_ports _ _ _ _); [destruct P|discriminate].
  - intros p P. destruct (port_link D A0 _ _ _ _ P) as (t & LK & _). eauto.
Qed.
Print Assumptions scatter_goes_on.

(** It makes at most two hops within a group and three otherwise, so it
    arrives. *)
Theorem scatter_arrives : forall D src dst s n,
  0 < d_a D -> groups_linked D -> df_G D src < d_g D -> df_G D dst < d_g D ->
  trip D src dst s n ->
  n <= (if df_G D src =? df_G D dst then 2 else 3) /\
  (n = (if df_G D src =? df_G D dst then 2 else 3) -> s = dst).
Proof.
  intros D src dst s n A0 GL Ls Ld T. fold (sg_max D src dst).
  destruct (trip_inv D A0 src dst GL Ls Ld s n T) as (k & W & K). split; [lia|].
  intros ->. assert (k = 0) by lia. subst. inversion W; auto.
Qed.
Print Assumptions scatter_arrives.

(** All-to-all wiring links all groups. *)
Theorem alltoall_linked : forall a g h, 0 < a -> alltoall_ok a g h = true ->
  groups_linked (alltoall a g h).
Proof.
  intros a g h A0 OK x y Lx Ly N. simpl in *.
  unfold alltoall_ok in OK. rewrite !andb_true_iff, negb_true_iff, Nat.eqb_neq in OK.
  destruct OK as ((C & _) & _).
  exists 0, (y * a + (0 + stride a g h * 0) mod a). repeat split; auto.
  - unfold ata_conn. apply in_flat_map. exists y. split; [apply in_seq; lia|].
    destruct (Nat.eqb_spec y x); [congruence|]. apply in_map_iff. exists 0.
    split; auto. apply in_seq. lia.
  - unfold df_G. simpl d_a. rewrite Nat.mul_0_r, Nat.add_0_r, Nat.mod_0_l by lia.
    rewrite Nat.add_0_r. apply Nat.div_mul. lia.
Qed.
Print Assumptions alltoall_linked.

(** Without a link between two groups a packet has no port at all. *)
Theorem scatter_unlinked_refuted : exists D src dst,
  D = single 2 5 /\ src < df_switches D /\ dst < df_switches D /\ src <> dst /\
  trip D src dst src 0 /\ sg_route D src dst src 0 = [].
Proof.
  exists (single 2 5), 0, 4. split; auto. split; [vm_compute; lia|]. split; [vm_compute; lia|].
  split; [discriminate|]. split; [constructor|]. vm_compute. reflexivity.
Qed.
Print Assumptions scatter_unlinked_refuted.

(** Four routers in each of three groups: many ports on the first hop, the
    router of the destination on the last. *)
Example scatter_example :
  sg_max (alltoall 4 3 4) 0 9 = 3 /\
  nodup Nat.eq_dec (sg_route (alltoall 4 3 4) 0 9 0 0) = [6; 7; 1; 2; 3] /\
  sg_route (alltoall 4 3 4) 0 9 8 2 = [1].
Proof. vm_compute. auto. Qed.
