(** SMP collectives: what the stages do together. *)
From Coq Require Import List Arith ZArith Lia Bool Sorting.Sorted.
From Verif Require Import CoModel CoProp RdModel RdProof AgModel AgProof AgProp AaModel AaProof AaProp
  PhModel PhProof BcModel BcProof BcProp GaModel GaProof GaProp SmModel.
Import ListNotations.
Local Open Scope nat_scope.

(** Finite choice. *)
Lemma choose : forall (B : Type) (d : B) (P : nat -> B -> Prop) (l : list nat),
  (forall g, In g l -> exists b, P g b) -> exists F, forall g, In g l -> P g (F g).
Proof.
  intros B d P l. induction l as [|x l IH]; intros H.
  - exists (fun _ => d). intros g [].
  - destruct IH as [F HF]; [intros g G; apply H; right; exact G|].
    destruct (H x (or_introl eq_refl)) as [b Hb].
    exists (fun g => if Nat.eqb g x then b else F g). intros g [<-|G].
    + rewrite Nat.eqb_refl. exact Hb.
    + destruct (Nat.eqb_spec g x) as [->|]; [exact Hb|apply HF, G].
Qed.

(** Runs of single collectives. *)
Lemma log2_pos : forall n, 2 <= n -> 0 < log2_of n.
Proof.
  intros n Hn. destruct (ctree_ok n) as (_ & P2 & _).
  destruct (log2_of n) as [|z]; [cbn in P2; lia|lia].
Qed.

Lemma rounds_run : forall (A B : Type) (s : sched A B), matched s -> no_race s ->
  exists k c, rexec s k c /\ forall p, p < sc_np s -> l_rnd (r_loc c p) = sc_nr s.
Proof.
  intros A B s M N.
  assert (H : forall m k c, rexec s k c -> m + k = 4 * sc_nr s * sc_np s ->
    exists k' c', rexec s k' c' /\ forall p, p < sc_np s -> l_rnd (r_loc c' p) = sc_nr s).
  { induction m as [|m IH]; intros k c Hx Hk.
    - destruct (rounds_progress s M N k c Hx) as [H|(c' & H)]; [exists k, c; auto|].
      pose proof (rounds_bounded s M N (S k) c' (rxS _ _ _ _ Hx H)). lia.
    - destruct (rounds_progress s M N k c Hx) as [H|(c' & H)]; [exists k, c; auto|].
      apply (IH (S k) c' (rxS _ _ _ _ Hx H)). lia. }
  apply (H (4 * sc_nr s * sc_np s) 0 (rinit s) (rx0 s)). lia.
Qed.

Lemma bcast_run' : forall (T : Type) n root ne (buf : nat -> nat -> T), 2 <= n -> root < n ->
  exists k c, pexec (bcast_prog n root ne buf) k c /\ forall p, p < n -> pdone (p_proc c p).
Proof.
  intros T n root ne buf Hn Hr.
  destruct (phases_run (bcast_prog n root ne buf) _ (bc_balanced n root ne ltac:(lia) Hr buf)
    (bc_single n root ne ltac:(lia) Hr buf) (bc_inside n root ne ltac:(lia) Hr buf)
    (bc_ordered n root ne ltac:(lia) Hr buf)) as (k & c & Hx & Hs).
  exists k, c. split; [exact Hx|]. destruct (bcast_delivers T n root ne buf ltac:(lia) Hr) as (_ & H).
  destruct (H k c Hx Hs) as (_ & H2). intros p Hp. now apply H2.
Qed.

Lemma gather_run' : forall (T : Type) n root ne (src buf : nat -> nat -> T), 2 <= n -> root < n ->
  exists k c, pexec (gather_prog n root ne src buf) k c /\ forall p, p < n -> pdone (p_proc c p).
Proof.
  intros T n root ne src buf Hn Hr. destruct (ga_balanced_single n root ne Hn Hr src buf) as (B & S1).
  destruct (phases_run (gather_prog n root ne src buf) _ B S1 (ga_inside n root ne Hn Hr src buf)
    (ga_ordered n root ne Hn Hr src buf)) as (k & c & Hx & Hs).
  exists k, c. split; [exact Hx|]. destruct (gather_collects T n root ne src buf Hn Hr) as (_ & H).
  destruct (H k c Hx Hs) as (_ & H2 & _). exact H2.
Qed.

(** Lists in ascending order with the same elements are the same. *)
Lemma sorted_eq : forall a b : list nat, StronglySorted lt a -> StronglySorted lt b ->
  (forall x, In x a <-> In x b) -> a = b.
Proof.
  induction a as [|x a IH]; intros [|y b] A B E.
  - reflexivity.
  - exfalso. apply (proj2 (E y)). left. reflexivity.
  - exfalso. apply (proj1 (E x)). left. reflexivity.
  - inversion A as [|? ? A1 A2]; subst. inversion B as [|? ? B1 B2]; subst.
    rewrite Forall_forall in A2, B2.
    assert (x = y).
    { destruct (proj1 (E x) (or_introl eq_refl)) as [->|Hx]; [reflexivity|].
      destruct (proj2 (E y) (or_introl eq_refl)) as [->|Hy]; [reflexivity|].
      specialize (A2 y Hy). specialize (B2 x Hx). lia. }
    subst y. f_equal. apply IH; auto. intro z. split; intro Z.
    + destruct (proj1 (E z) (or_intror Z)) as [->|Q]; [specialize (A2 z Z); lia|exact Q].
    + destruct (proj2 (E z) (or_intror Z)) as [->|Q]; [specialize (B2 z Z); lia|exact Q].
Qed.

Section Smp.
Variables (nranks : nat) (node : nat -> nat) (members : list nat).
Hypothesis ND : NoDup members.
Hypothesis IN : forall g, In g members -> g < nranks.

Local Notation sub := (subset nranks node members).
Local Notation srank := (smp_rank nranks node members).
Local Notation see := (seen nranks node members).

Definition owners : list nat := filter (fun g => Nat.eqb (srank g) 0) members.
Definition even : Prop := forall g h, In g members -> In h members ->
  on_node node members (node g) = on_node node members (node h).

Lemma see_smp : forall r, v_smp (see r) = sub (nth r members 0). Proof. reflexivity. Qed.
Lemma see_rank : forall r, v_smp_rank (see r) = srank (nth r members 0). Proof. reflexivity. Qed.

Lemma see_owner : forall r, r < length members -> srank (nth r members 0) = 0 ->
  exists k, v_owner (see r) = Some (owners, Z.of_nat k) /\ nth_error owners k = Some (nth r members 0).
Proof.
  intros r R E. unfold seen, smp_view. cbn [v_owner]. rewrite (proj2 (Nat.eqb_eq _ _) E).
  destruct (owner_loop_mine nranks node members members 0 r 0 (-1)%Z (nth r members 0) ltac:(lia)) as [j [J1 J2]]; auto.
  { rewrite Nat.sub_0_r. apply nth_error_nth' with (d := 0). exact R. }
  exists j. split; [|exact J2].
  pose proof (owner_loop_list nranks node members members 0 r 0 (-1)%Z) as L.
  destruct (owner_loop 0 r 0 (-1)%Z _) as [l k]. cbn [fst snd] in *. subst k. rewrite L. reflexivity.
Qed.

Lemma see_other : forall r, srank (nth r members 0) <> 0 ->
  v_owner (see r) = None /\ v_balanced (see r) = true.
Proof.
  intros r E. unfold seen, smp_view. cbn [v_owner v_balanced].
  rewrite (proj2 (Nat.eqb_neq _ _) E). split; reflexivity.
Qed.

Lemma see_balanced : even -> forall r, v_balanced (see r) = true.
Proof.
  intros E r. destruct (Nat.eq_dec (srank (nth r members 0)) 0) as [Z0|N]; [|apply see_other, N].
  unfold seen, smp_view. cbn [v_balanced]. rewrite Z0. cbn [Nat.eqb]. apply balanced_flag_spec; auto.
Qed.

Lemma see_unbalanced : ~ even -> forall r, srank (nth r members 0) = 0 -> v_balanced (see r) = false.
Proof.
  intros E r Z0. unfold seen, smp_view. cbn [v_balanced]. rewrite Z0. cbn [Nat.eqb].
  destruct (balanced_flag _) eqn:F; [|reflexivity]. exfalso. apply E. unfold even. apply (proj1 (balanced_flag_spec nranks node members ND IN) F).
Qed.

Lemma owners_in : forall g, In g owners <-> In g members /\ srank g = 0.
Proof. intro g. unfold owners. rewrite filter_In, Nat.eqb_eq. reflexivity. Qed.

Lemma index_of : forall g, In g members -> exists r, r < length members /\ nth r members 0 = g.
Proof. intros g G. destruct (In_nth members g 0 G) as (r & R & E). eauto. Qed.

(** The ranks, node by node. *)
Definition by_node : list nat := flat_map sub owners.

Lemma owners_nodup : NoDup owners. Proof. apply NoDup_filter, ND. Qed.

Lemma by_node_nodup : NoDup by_node.
Proof.
  unfold by_node.
  assert (H : forall l, NoDup l -> (forall g, In g l -> In g members /\ srank g = 0) -> NoDup (flat_map sub l)).
  { induction l as [|g l IH]; intros N Q; cbn [flat_map]; [constructor|].
    inversion N as [|? ? N1 N2]; subst. apply ListFacts.nodup_app_iff.
    split; [apply subset_nodup|]. split; [apply IH; [exact N2|intros; apply Q; right; auto]|].
    intros x X Y. apply in_flat_map in Y. destruct Y as (h & H1 & H2).
    apply (subset_in nranks node members ND IN) in X, H2 || apply (subset_in nranks node members IN) in X, H2.
    destruct (Q g (or_introl eq_refl)) as [G1 G2]. destruct (Q h (or_intror H1)) as [G3 G4].
    assert (g = h) by (apply (srank_inj nranks node members IN); auto; (destruct X, H2; congruence) || congruence).
    subst h. auto. }
  apply H; [apply owners_nodup|]. intros g G. apply owners_in, G.
Qed.

Lemma by_node_in : forall g, In g by_node <-> In g members.
Proof.
  intro g. unfold by_node. rewrite in_flat_map. split.
  - intros (h & H1 & H2). apply (subset_in nranks node members IN) in H2. tauto.
  - intro G. destruct (own_spec nranks node members IN g G) as (O1 & O2 & O3).
    exists (own nranks node members g). split; [apply owners_in; auto|].
    apply (subset_in nranks node members IN). auto.
Qed.

Lemma by_node_length : length by_node = length members.
Proof.
  apply Nat.le_antisymm; apply NoDup_incl_length; auto using by_node_nodup; intros x; apply by_node_in.
Qed.

Lemma flat_map_length_const : forall (f : nat -> list nat) l s, (forall x, In x l -> length (f x) = s) ->
  length (flat_map f l) = length l * s.
Proof.
  induction l as [|x l IH]; intros s H; cbn; [reflexivity|].
  rewrite app_length, (H x (or_introl eq_refl)), (IH s); [lia|intros; apply H; right; auto].
Qed.

Lemma flat_map_nth_const : forall (f : nat -> list nat) l s o i, (forall x, In x l -> length (f x) = s) ->
  o < length l -> i < s -> nth (o * s + i) (flat_map f l) 0 = nth i (f (nth o l 0)) 0.
Proof.
  induction l as [|x l IH]; intros s o i H O I; cbn [length] in O; [lia|]. cbn [flat_map].
  pose proof (H x (or_introl eq_refl)) as Lx. destruct o as [|o].
  - cbn [nth Nat.mul Nat.add]. rewrite app_nth1 by lia. reflexivity.
  - rewrite app_nth2 by (cbn; lia). rewrite Lx.
    replace (S o * s + i - s) with (o * s + i) by (cbn; lia). cbn [nth].
    apply IH; [intros; apply H; right; auto|lia|exact I].
Qed.

(** ---- the chains ---- *)
Lemma ag_stages_owner : forall ne r, even -> r < length members -> srank (nth r members 0) = 0 ->
  allgather_stages (length members) ne (see r) = [KCollectIn; KCollectOut; KBcast 0 (length members * ne); KNothing].
Proof.
  intros ne r E R Z0. unfold allgather_stages, has_owner. rewrite (see_balanced E).
  destruct (see_owner r R Z0) as (k & -> & _). reflexivity.
Qed.
Lemma ag_stages_other : forall ne r, srank (nth r members 0) <> 0 ->
  allgather_stages (length members) ne (see r) = [KCollectIn; KBcast 0 (length members * ne); KNothing].
Proof.
  intros ne r N. unfold allgather_stages, has_owner. destruct (see_other r N) as [-> ->]. reflexivity.
Qed.
Lemma aa_stages_owner : forall ne r, even -> r < length members -> srank (nth r members 0) = 0 ->
  alltoall_stages (length members) ne (see r) = [KGatherIn; KSwapOut; KBcast 0 (length members * ne); KNothing].
Proof.
  intros ne r E R Z0. unfold alltoall_stages, has_owner. rewrite (see_balanced E).
  destruct (see_owner r R Z0) as (k & -> & _). reflexivity.
Qed.
Lemma aa_stages_other : forall ne r, srank (nth r members 0) <> 0 ->
  alltoall_stages (length members) ne (see r) = [KGatherIn; KBcast 0 (length members * ne); KNothing].
Proof.
  intros ne r N. unfold alltoall_stages, has_owner. destruct (see_other r N) as [-> ->]. reflexivity.
Qed.

(** Broadcast within the node: everybody has what the owner brought. *)
Lemma sub_len : paired node members -> forall g, In g members -> 2 <= length (sub g).
Proof. intros P g G. rewrite (length_subset nranks node members ND IN). specialize (P g G). lia. Qed.

Section Data.
Context {T : Type}.
Variables (ne : nat) (op : T -> T -> T) (src work : nat -> nat -> T) (aux : nat -> T).
Local Notation ends := (stage_ends members ne op src work aux).

Lemma bcast_stage : paired node members -> forall r root cnt J pre post, r < length members ->
  let g := nth r members 0 in root < length (sub g) ->
  ends r (see r) (KBcast root cnt) J pre post ->
  b_tmp post = b_tmp (pre g) /\
  forall x, b_dst post x = if x <? cnt then b_dst (pre (nth root (sub g) 0)) x else b_dst (pre g) x.
Proof.
  intros P r root cnt J pre post R g Hroot (_ & x & c & Hx & Hd & ->). cbn [party place b_tmp b_dst] in *.
  rewrite see_smp, see_rank in *. fold g in Hx, Hd |- *.
  assert (G : In g members) by (apply nth_In, R).
  split; [reflexivity|]. intros y.
  pose proof (bcast_early T _ root cnt _ x c (srank g) (sub_len P g G) Hroot (srank_lt nranks node members IN g G) Hx Hd y) as B.
  rewrite B. cbv beta. rewrite (nth_error_nth (sub g) (srank g) 0 (srank_nth nranks node members IN g G)). reflexivity.
Qed.

Lemma collect_in_stage : paired node members -> forall r J pre post, r < length members ->
  let g := nth r members 0 in
  ends r (see r) KCollectIn J pre post ->
  b_dst post = b_dst (pre g) /\
  (forall i e, i < length (sub g) -> e < ne -> b_tmp post (i * ne + e) = src (nth i (sub g) 0) e).
Proof.
  intros P r J pre post R g (_ & x & c & _ & Hx & Hd & ->). cbn [party place b_tmp b_dst] in *.
  rewrite see_smp, see_rank in *. fold g in Hx, Hd |- *.
  assert (G : In g members) by (apply nth_In, R).
  split; [reflexivity|]. intros i e Hi He.
  pose proof (sub_len P g G).
  exact (allgather_delivers_all_blocks T (length (sub g)) ne _ _ x c (srank g) ltac:(lia) Hx (srank_lt nranks node members IN g G) Hd i e Hi He).
Qed.

Lemma collect_out_stage : forall r J pre post, r < length members -> srank (nth r members 0) = 0 ->
  let g := nth r members 0 in
  ends r (see r) KCollectOut J pre post ->
  b_tmp post = b_tmp (pre g) /\
  (forall o x, o < length owners -> x < length (sub g) * ne ->
     b_dst post (o * (length (sub g) * ne) + x) = b_tmp (pre (nth o owners 0)) x) /\
  (forall x, length owners * (length (sub g) * ne) <= x -> b_dst post x = b_dst (pre g) x).
Proof.
  intros r J pre post R Z0 g (_ & x & c & _ & Hx & Hd & ->).
  destruct (see_owner r R Z0) as (k & E & K).
  cbn [party place b_tmp b_dst] in *. rewrite E, Nat2Z.id, see_smp in *. fold g in Hx, Hd, K |- *.
  assert (Lk : k < length owners) by (apply nth_error_Some; congruence).
  split; [reflexivity|]. split.
  - intros o y Ho Hy.
    exact (allgather_delivers_all_blocks T (length owners) _ _ _ x c k ltac:(lia) Hx Lk Hd o y Ho Hy).
  - intros y Hy. rewrite (allgather_no_overrun T (length owners) _ _ _ x c k ltac:(lia) Hx Lk Hd y Hy).
    rewrite (nth_error_nth owners k 0 K). reflexivity.
Qed.

(** ---- allgather ---- *)
Theorem smp_allgather_blocks : paired node members -> even ->
  forall ini fin, smp_allgather_ended nranks node members ne op src work aux ini fin ->
  forall g, In g members ->
  (forall j e, j < length members -> e < ne -> b_dst (fin g) (j * ne + e) = src (nth j by_node 0) e) /\
  (forall x, length members * ne <= x -> b_dst (fin g) x = b_dst (ini g) x).
Proof.
  intros P E ini fin (pre & post & W) g G.
  set (N := length members) in *.
  (* what every rank has after the first stage *)
  assert (W1 : forall q, In q members -> pre KCollectIn q = ini q /\
    b_dst (post KCollectIn q) = b_dst (ini q) /\
    forall i e, i < length (sub q) -> e < ne -> b_tmp (post KCollectIn q) (i * ne + e) = src (nth i (sub q) 0) e).
  { intros q Q. destruct (index_of q Q) as (r & R & <-). specialize (W r R). unfold N in W. cbv beta in W.
    destruct (Nat.eq_dec (srank (nth r members 0)) 0) as [Z0|NZ].
    - rewrite (ag_stages_owner ne r E R Z0) in W. cbn [walk] in W. destruct W as (W1 & W2 & _).
      destruct (collect_in_stage P r _ _ _ R W2) as (C1 & C2). rewrite W1 in C1. auto.
    - rewrite (ag_stages_other ne r NZ) in W. cbn [walk] in W. destruct W as (W1 & W2 & _).
      destruct (collect_in_stage P r _ _ _ R W2) as (C1 & C2). rewrite W1 in C1. auto. }
  assert (Ls : forall q, In q members -> length (sub q) = length (sub g)).
  { intros q Q. rewrite !(length_subset nranks node members ND IN). apply E; auto. }
  set (s := length (sub g)) in *.
  assert (HN : N = length owners * s).
  { unfold N. rewrite <- by_node_length. apply flat_map_length_const. intros x X. apply Ls, owners_in, X. }
  (* owners *)
  assert (W2 : forall q, In q owners -> pre KCollectOut q = post KCollectIn q /\
    pre (KBcast 0 (N * ne)) q = post KCollectOut q).
  { intros q Q. apply owners_in in Q. destruct Q as [Q Z0]. destruct (index_of q Q) as (r & R & <-). specialize (W r R). unfold N in W. cbv beta in W. rewrite (ag_stages_owner ne r E R Z0) in W. cbn [walk] in W. fold N in W. tauto. }
  assert (W3 : forall q, In q owners ->
    (forall o x, o < length owners -> x < s * ne -> b_dst (post KCollectOut q) (o * (s * ne) + x) = b_tmp (post KCollectIn (nth o owners 0)) x) /\
    (forall x, N * ne <= x -> b_dst (post KCollectOut q) x = b_dst (ini q) x)).
  { intros q Q. pose proof Q as Q'. apply owners_in in Q. destruct Q as [Q Z0]. destruct (index_of q Q) as (r & R & Eq). specialize (W r R). unfold N in W. cbv beta in W. rewrite <- Eq in Z0. rewrite (ag_stages_owner ne r E R Z0) in W. cbn [walk] in W. destruct W as (_ & _ & V1 & V2 & _).
    destruct (collect_out_stage r _ _ _ R Z0 V2) as (_ & C2 & C3). rewrite Eq in *. rewrite (Ls q Q) in *. split.
    - intros o x Ho Hx. rewrite (C2 o x Ho Hx). rewrite (proj1 (W2 _ (nth_In owners 0 Ho))). reflexivity.
    - intros x Hx. rewrite C3 by (rewrite HN in Hx; nia). rewrite (proj1 (W2 q Q')). rewrite (proj1 (proj2 (W1 q Q))). reflexivity. }
  (* the last stages *)
  assert (O : In (nth 0 (sub g) 0) owners).
  { destruct (own_spec nranks node members IN g G) as (O1 & O2 & O3). unfold own in *. apply owners_in. auto. }
  assert (W4 : forall x, b_dst (fin g) x = if x <? N * ne then b_dst (post KCollectOut (nth 0 (sub g) 0)) x
                                           else b_dst (pre (KBcast 0 (N * ne)) g) x).
  { destruct (index_of g G) as (r & R & Eg). specialize (W r R). unfold N in W. cbv beta in W.
    assert (B : ends r (see r) (KBcast 0 (N * ne)) (fun _ => True) (pre (KBcast 0 (N * ne))) (post (KBcast 0 (N * ne)) g) /\
                fin g = post (KBcast 0 (N * ne)) g).
    { destruct (Nat.eq_dec (srank (nth r members 0)) 0) as [Z0|NZ].
      - rewrite (ag_stages_owner ne r E R Z0) in W. cbn [walk] in W. rewrite Eg in W.
        destruct W as (_ & _ & _ & _ & _ & (_ & V1) & V2 & (_ & V3) & V4). fold N in V1, V2, V3, V4. split; [split; [exact I|exact V1]|]. rewrite Eg in V3. congruence.
      - rewrite (ag_stages_other ne r NZ) in W. cbn [walk] in W. rewrite Eg in W.
        destruct W as (_ & _ & _ & (_ & V1) & V2 & (_ & V3) & V4). fold N in V1, V2, V3, V4. split; [split; [exact I|exact V1]|]. rewrite Eg in V3. congruence. }
    destruct B as (B1 & B2). rewrite B2. pose proof (sub_len P g G).
    destruct (bcast_stage P r 0 (N * ne) _ _ _ R ltac:(rewrite Eg; lia) B1) as (_ & C). intros x. rewrite C, Eg.
    rewrite (proj2 (W2 _ O)). reflexivity. }
  split.
  - intros j e Hj He.
    assert (Hs : 0 < s) by (pose proof (sub_len P g G); lia).
    rewrite W4. destruct (Nat.ltb_spec (j * ne + e) (N * ne)) as [_|H]; [|nia].
    pose proof (Nat.div_mod j s ltac:(lia)) as DM. pose proof (Nat.mod_upper_bound j s ltac:(lia)) as UB.
    assert (Ho : j / s < length owners) by (apply Nat.div_lt_upper_bound; lia).
    replace (j * ne + e) with ((j / s) * (s * ne) + ((j mod s) * ne + e)) by nia.
    rewrite (proj1 (W3 _ O)) by (try exact Ho; nia).
    assert (Om : In (nth (j / s) owners 0) members) by (apply (owners_in (nth (j / s) owners 0)), nth_In, Ho).
    destruct (W1 _ Om) as (_ & _ & C). rewrite C by (rewrite ?Ls by exact Om; fold s; lia).
    f_equal. rewrite DM at 3. rewrite (Nat.mul_comm s). symmetry. apply flat_map_nth_const; auto.
    intros x X. apply Ls, owners_in, X.
  - intros x Hx. rewrite W4. destruct (Nat.ltb_spec x (N * ne)) as [H|_]; [lia|].
    destruct (Nat.eq_dec (srank g) 0) as [Z0|NZ].
    + assert (Og : In g owners) by (apply owners_in; auto). rewrite (proj2 (W2 g Og)). apply W3; auto.
    + destruct (index_of g G) as (r & R & Eg). specialize (W r R). unfold N in W. cbv beta in W. rewrite <- Eg in NZ.
      rewrite (ag_stages_other ne r NZ) in W. cbn [walk] in W. rewrite Eg in W. destruct W as (_ & _ & V & _). fold N in V.
      rewrite V. rewrite (proj1 (proj2 (W1 g G))). reflexivity.
Qed.

(** ---- the chains can be run ---- *)
Lemma pick : forall (Q : nat -> bufs T -> Prop), (forall r, r < length members -> exists b, Q r b) -> bufs T ->
  exists F : nat -> bufs T, forall r, r < length members -> Q r (F (nth r members 0)).
Proof.
  intros Q H d.
  destruct (choose (bufs T) d (fun g b => forall r, r < length members -> nth r members 0 = g -> Q r b) members) as [F HF].
  - intros g G. destruct (index_of g G) as (r & R & E). destruct (H r R) as [b B]. exists b.
    intros r' R' E'. assert (r' = r) by (apply (proj1 (NoDup_nth members 0) ND); congruence). subst r'. exact B.
  - exists F. intros r R. apply HF with (r := r); auto. apply nth_In, R.
Qed.

Definition joins_in (stages : nat -> list stage) (k : stage) (q : nat) : Prop :=
  exists r', r' < length members /\ nth r' members 0 = q /\ In k (stages r').

Lemma chain_run : forall stages ki ko cnt, 
  (ki = KCollectIn /\ ko = KCollectOut) \/ (ki = KGatherIn /\ ko = KSwapOut) ->
  (forall r, r < length members -> stages r =
     if Nat.eqb (srank (nth r members 0)) 0 then [ki; ko; KBcast 0 cnt; KNothing] else [ki; KBcast 0 cnt; KNothing]) ->
  (forall pre r, r < length members -> exists post, ends r (see r) ki (joins_in stages ki) pre post) ->
  (forall pre r, r < length members -> srank (nth r members 0) = 0 -> exists post, ends r (see r) ko (joins_in stages ko) pre post) ->
  (forall pre r, r < length members -> exists post, ends r (see r) (KBcast 0 cnt) (joins_in stages (KBcast 0 cnt)) pre post) ->
  forall ini, exists fin, smp_ended nranks node members ne op src work aux stages ini fin.
Proof.
  intros stages ki ko cnt Hk HS H1 H2 H3 ini.
  destruct (pick (fun r b => ends r (see r) ki (joins_in stages ki) ini b) (H1 ini) (ini 0)) as [F1 HF1].
  destruct (pick (fun r b => srank (nth r members 0) = 0 -> ends r (see r) ko (joins_in stages ko) F1 b)) as [F2 HF2].
  { intros r R. destruct (Nat.eq_dec (srank (nth r members 0)) 0) as [Z0|NZ].
    - destruct (H2 F1 r R Z0) as [b B]. eauto.
    - exists (ini 0). congruence. }
  { exact (ini 0). }
  set (F12 := fun g => if Nat.eqb (srank g) 0 then F2 g else F1 g).
  destruct (pick (fun r b => ends r (see r) (KBcast 0 cnt) (joins_in stages (KBcast 0 cnt)) F12 b) (H3 F12) (ini 0)) as [F3 HF3].
  exists F3.
  exists (fun k => match k with KCollectIn | KGatherIn => ini | KCollectOut | KSwapOut => F1 | KBcast _ _ => F12 | _ => F3 end).
  exists (fun k => match k with KCollectIn | KGatherIn => F1 | KCollectOut | KSwapOut => F2 | _ => F3 end).
  intros r R. rewrite (HS r R). specialize (HF1 r R). specialize (HF2 r R). specialize (HF3 r R). cbv beta in *.
  unfold joins_in in *. assert (E12 : F12 (nth r members 0) = if Nat.eqb (srank (nth r members 0)) 0 then F2 (nth r members 0) else F1 (nth r members 0)) by reflexivity.
  destruct (Nat.eqb_spec (srank (nth r members 0)) 0) as [Z0|NZ];
    destruct Hk as [[-> ->]|[-> ->]]; cbn [walk]; repeat split; auto; try (apply HF2; exact Z0); try apply HF3; try apply HF1.
Qed.

Lemma bcast_can : paired node members -> forall cnt J pre r, r < length members ->
  exists post, ends r (see r) (KBcast 0 cnt) J pre post.
Proof.
  intros P cnt J pre r R. assert (G : In (nth r members 0) members) by (apply nth_In, R).
  pose proof (sub_len P _ G) as L.
  destruct (bcast_run' T (length (sub (nth r members 0))) 0 cnt (fun j => b_dst (pre (nth j (sub (nth r members 0)) 0))) L ltac:(lia)) as (x & c & Hx & Hd).
  eexists. split; [exact I|]. exists x, c. split; [exact Hx|]. split; [|reflexivity].
  apply Hd. apply (srank_lt nranks node members IN _ G).
Qed.

Lemma rounds_can : forall (A B : Type) (s : sched A B) i, matched s -> no_race s -> i < sc_np s ->
  exists x c, rexec s x c /\ l_rnd (r_loc c i) = sc_nr s.
Proof.
  intros A B s i M N Hi. destruct (rounds_run A B s M N) as (x & c & Hx & H). exists x, c. split; [exact Hx|apply H, Hi].
Qed.

Lemma owner_index : forall q, In q owners -> exists r, r < length members /\ nth r members 0 = q /\ srank (nth r members 0) = 0.
Proof.
  intros q Q. apply owners_in in Q. destruct Q as [Q Z0]. destruct (index_of q Q) as (r & R & E). exists r.
  split; [exact R|]. split; [exact E|congruence].
Qed.

Theorem smp_allgather_can_end : paired node members -> even -> 2 <= length owners ->
  forall ini, exists fin, smp_allgather_ended nranks node members ne op src work aux ini fin.
Proof.
  intros P E O ini.
  set (stages := fun r => allgather_stages (length members) ne (see r)).
  assert (HS : forall r, r < length members -> stages r = if Nat.eqb (srank (nth r members 0)) 0
    then [KCollectIn; KCollectOut; KBcast 0 (length members * ne); KNothing]
    else [KCollectIn; KBcast 0 (length members * ne); KNothing]).
  { intros r R. unfold stages. destruct (Nat.eqb_spec (srank (nth r members 0)) 0) as [Z0|NZ];
      [apply ag_stages_owner|apply ag_stages_other]; auto. }
  apply (chain_run stages KCollectIn KCollectOut (length members * ne)); auto.
  - intros pre r R. assert (G : In (nth r members 0) members) by (apply nth_In, R).
    pose proof (sub_len P _ G) as L. set (g := nth r members 0) in *.
    set (sd := bruck_sched (length (sub g)) ne (fun j => b_tmp (pre (nth j (sub g) 0))) (fun j => Some (src (nth j (sub g) 0)))).
    destruct (rounds_can _ _ sd (srank g) (bruck_matched (length (sub g)) _ _ _ ltac:(lia)) (bruck_no_race (length (sub g)) _ _ _ ltac:(lia))
      (srank_lt nranks node members IN g G)) as (x & c & Hx & Hd).
    eexists. split.
    + intros q Q. apply (subset_in nranks node members IN) in Q. destruct Q as [Q _]. destruct (index_of q Q) as (r' & R' & E').
      exists r'. split; [exact R'|]. split; [exact E'|]. rewrite (HS r' R'). destruct (Nat.eqb _ 0); left; reflexivity.
    + exists x, c. split; [|split; [exact Hx|split; [exact Hd|reflexivity]]].
      change (0 < sc_nr sd). unfold sd. rewrite bruck_nr by lia. apply log2_pos. exact L.
  - intros pre r R Z0. destruct (see_owner r R Z0) as (k & EO & K).
    assert (Lk : k < length owners) by (apply nth_error_Some; congruence).
    set (g := nth r members 0) in *.
    set (sd := bruck_sched (length owners) (length (sub g) * ne) (fun j => b_dst (pre (nth j owners 0))) (fun j => Some (b_tmp (pre (nth j owners 0))))).
    destruct (rounds_can _ _ sd k (bruck_matched (length owners) _ _ _ ltac:(lia)) (bruck_no_race (length owners) _ _ _ ltac:(lia)) Lk) as (x & c & Hx & Hd).
    unfold stage_ends. cbn [party place dense]. rewrite EO, Nat2Z.id. eexists. split.
    + intros q Q. destruct (owner_index q Q) as (r' & R' & E' & Z').
      exists r'. split; [exact R'|]. split; [exact E'|]. rewrite (HS r' R'), Z'. right; left; reflexivity.
    + exists x, c. split; [|split; [exact Hx|split; [exact Hd|reflexivity]]].
      change (0 < sc_nr sd). unfold sd. rewrite bruck_nr by lia. apply log2_pos. exact O.
  - intros pre r R. apply bcast_can; auto.
Qed.

(** ---- alltoall ---- *)
Lemma gather_in_stage : paired node members -> forall r J pre post, r < length members -> srank (nth r members 0) = 0 ->
  let g := nth r members 0 in
  ends r (see r) KGatherIn J pre post ->
  b_dst post = b_dst (pre g) /\
  (forall i x, i < length (sub g) -> x < length (sub g) * ne -> b_tmp post (i * (length (sub g) * ne) + x) = src (nth i (sub g) 0) x).
Proof.
  intros P r J pre post R Z0 g (_ & x & c & Hx & Hd & ->). cbn [party place b_tmp b_dst] in *.
  rewrite see_smp, see_rank in *. fold g in Hx, Hd, Z0 |- *. rewrite Z0 in *.
  assert (G : In g members) by (apply nth_In, R).
  split; [reflexivity|]. intros i e Hi He. pose proof (sub_len P g G) as L.
  destruct (gather_early T (length (sub g)) 0 _ _ _ x c L ltac:(lia) Hx Hd) as (C & _). apply C; auto.
Qed.

Lemma swap_out_stage : forall r J pre post, r < length members -> srank (nth r members 0) = 0 ->
  let g := nth r members 0 in
  ends r (see r) KSwapOut J pre post ->
  forall o k x, nth_error owners k = Some g -> o < length owners -> x < length (sub g) * ne ->
     b_dst post (o * (length (sub g) * ne) + x) = b_tmp (pre (nth o owners 0)) (k * (length (sub g) * ne) + x).
Proof.
  intros r J pre post R Z0 g (_ & x & c & _ & Hx & Hd & ->).
  destruct (see_owner r R Z0) as (k & E & K).
  cbn [party place b_tmp b_dst] in *. rewrite E, Nat2Z.id, see_smp in *. fold g in Hx, Hd, K |- *.
  assert (Lk : k < length owners) by (apply nth_error_Some; congruence).
  intros o k' y K' Ho Hy.
  assert (k' = k) by (pose proof owners_nodup as Q; rewrite NoDup_nth_error in Q; symmetry; apply Q; congruence). subst k'.
  exact (alltoall_transposes T (length owners) _ _ _ _ x c k ltac:(lia) Hx Lk Hd o y Ho Hy).
Qed.

(** What the SMP alltoall leaves: for every rank of a node the same. *)
Theorem smp_alltoall_same_on_node : paired node members -> even ->
  forall ini fin, smp_alltoall_ended nranks node members ne op src work aux ini fin ->
  forall g h, In g members -> In h members -> node g = node h ->
  forall x, x < length members * ne -> b_dst (fin g) x = b_dst (fin h) x.
Proof.
  intros P E ini fin (pre & post & W).
  assert (K : forall g, In g members -> forall x, x < length members * ne ->
    b_dst (fin g) x = b_dst (pre (KBcast 0 (length members * ne)) (nth 0 (sub g) 0)) x).
  { intros g G. destruct (index_of g G) as (r & R & Eg). specialize (W r R). cbv beta in W.
    assert (B : ends r (see r) (KBcast 0 (length members * ne)) (fun _ => True) (pre (KBcast 0 (length members * ne))) (post (KBcast 0 (length members * ne)) g) /\
                fin g = post (KBcast 0 (length members * ne)) g).
    { destruct (Nat.eq_dec (srank (nth r members 0)) 0) as [Z0|NZ].
      - rewrite (aa_stages_owner ne r E R Z0) in W. cbn [walk] in W. rewrite Eg in W.
        destruct W as (_ & _ & _ & _ & _ & (_ & V1) & V2 & (_ & V3) & V4). split; [split; [exact I|exact V1]|]. rewrite Eg in V3. congruence.
      - rewrite (aa_stages_other ne r NZ) in W. cbn [walk] in W. rewrite Eg in W.
        destruct W as (_ & _ & _ & (_ & V1) & V2 & (_ & V3) & V4). split; [split; [exact I|exact V1]|]. rewrite Eg in V3. congruence. }
    destruct B as (B1 & B2). rewrite B2. pose proof (sub_len P g G).
    destruct (bcast_stage P r 0 _ _ _ _ R ltac:(rewrite Eg; lia) B1) as (_ & C). intros x Hx. rewrite C, Eg.
    destruct (Nat.ltb_spec x (length members * ne)); [reflexivity|lia]. }
  intros g h G H N x Hx. rewrite (K g G x Hx), (K h H x Hx). rewrite (subset_same nranks node members g h N). reflexivity.
Qed.

Theorem smp_alltoall_can_end : paired node members -> even -> 2 <= length owners ->
  forall ini, exists fin, smp_alltoall_ended nranks node members ne op src work aux ini fin.
Proof.
  intros P E O ini.
  set (stages := fun r => alltoall_stages (length members) ne (see r)).
  assert (HS : forall r, r < length members -> stages r = if Nat.eqb (srank (nth r members 0)) 0
    then [KGatherIn; KSwapOut; KBcast 0 (length members * ne); KNothing]
    else [KGatherIn; KBcast 0 (length members * ne); KNothing]).
  { intros r R. unfold stages. destruct (Nat.eqb_spec (srank (nth r members 0)) 0) as [Z0|NZ];
      [apply aa_stages_owner|apply aa_stages_other]; auto. }
  apply (chain_run stages KGatherIn KSwapOut (length members * ne)); auto.
  - intros pre r R. assert (G : In (nth r members 0) members) by (apply nth_In, R).
    pose proof (sub_len P _ G) as L. set (g := nth r members 0) in *.
    destruct (gather_run' T (length (sub g)) 0 (length (sub g) * ne) (fun j => src (nth j (sub g) 0))
       (fun j => if Nat.eqb j 0 then b_tmp (pre (nth j (sub g) 0)) else work (nth j (sub g) 0)) L ltac:(lia)) as (x & c & Hx & Hd).
    eexists. split; [exact I|]. exists x, c. split; [exact Hx|split; [apply Hd, (srank_lt nranks node members IN g G)|reflexivity]].
  - intros pre r R Z0. destruct (see_owner r R Z0) as (k & EO & K).
    assert (Lk : k < length owners) by (apply nth_error_Some; congruence).
    set (g := nth r members 0) in *.
    set (sd := aa_sched (length owners) (length (sub g) * ne) (fun j => b_dst (pre (nth j owners 0))) (fun j => b_tmp (pre (nth j owners 0))) aux).
    destruct (rounds_can _ _ sd k (aa_matched (length owners) _ _ _ _ ltac:(lia)) (aa_no_race (length owners) _ _ _ _) Lk) as (x & c & Hx & Hd).
    unfold stage_ends. cbn [party place dense]. rewrite EO, Nat2Z.id. eexists. split.
    + intros q Q. destruct (owner_index q Q) as (r' & R' & E' & Z').
      exists r'. split; [exact R'|]. split; [exact E'|]. rewrite (HS r' R'), Z'. right; left; reflexivity.
    + exists x, c. split; [|split; [exact Hx|split; [exact Hd|reflexivity]]].
      change (0 < sc_nr sd). unfold sd. rewrite aa_nr by lia. apply log2_pos. exact O.
  - intros pre r R. apply bcast_can; auto.
Qed.
End Data.
End Smp.
