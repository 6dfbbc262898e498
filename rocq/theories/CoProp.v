(* C53: rank translations.  C87: SMP communicators. *)
From Coq Require Import ZArith List Bool Arith Lia Sorting.Sorted.
From Verif Require Import CoModel.
Import ListNotations.
Open Scope Z_scope.

(* ---------- C53 ---------- *)

(* Constructor arguments a caller may pass, and the parent's being one. *)
Fixpoint args_ok (c : comm) : Prop :=
  match c with
  | CGlobal n => 0 < n
  | CMap l => NoDup l /\ l <> []
  | CShifted d s => args_ok d /\ 0 <= s <= nproc d
  | CIndex l n => NoDup l /\ n = Z.of_nat (length l) /\ l <> []
  | CRotate n s => 0 < n /\ 0 <= s <= n
  | CSubrange n st => 0 < n /\ 0 <= st
  end.

Fixpoint has_index (c : comm) : bool :=
  match c with CIndex _ _ => true | CShifted d _ => has_index d | _ => false end.

Lemma map_find_none : forall l i g, ~ In g l -> map_find l i g = None.
Proof.
  induction l as [|x l IH]; intros i g N; cbn; [reflexivity|].
  rewrite IH by (intro; apply N; right; auto).
  destruct (Z.eqb_spec x g); [exfalso; apply N; left; auto|reflexivity].
Qed.

Lemma map_find_nth : forall l i k g, NoDup l -> nth_error l k = Some g ->
  map_find l i g = Some (i + Z.of_nat k).
Proof.
  induction l as [|x l IH]; intros i k g ND E; [destruct k; discriminate|].
  inversion ND as [|? ? N ND']; subst. cbn [map_find]. destruct k as [|k]; cbn in E.
  - injection E as ->. rewrite map_find_none by exact N. rewrite Z.eqb_refl. f_equal. lia.
  - rewrite (IH (i + 1) k g ND' E). f_equal. lia.
Qed.

Lemma map_size_nodup : forall l, NoDup l -> map_size l = Z.of_nat (length l).
Proof. intros l ND. unfold map_size. rewrite (nodup_fixed_point Z.eq_dec ND). reflexivity. Qed.

Lemma nproc_pos : forall c, args_ok c -> 0 < nproc c.
Proof.
  induction c as [n|l|d IH s|l n|n s|n st]; cbn; intro H; try tauto.
  - destruct H as [ND NE]. rewrite map_size_nodup by exact ND. destruct l; [congruence|cbn; lia].
  - destruct H as [ND [-> NE]]. destruct l; [congruence|cbn; lia].
Qed.

Lemma vec_at_in : forall l r, 0 <= r < Z.of_nat (length l) ->
  exists g, vec_at l r = Some g /\ nth_error l (Z.to_nat r) = Some g.
Proof.
  intros l r R. unfold vec_at. destruct (Z.ltb_spec r 0); [lia|].
  destruct (nth_error l (Z.to_nat r)) as [g|] eqn:E; [eauto|].
  apply nth_error_None in E. lia.
Qed.

Lemma rem_wrap : forall x n, 0 < n -> 0 <= x < 2 * n ->
  Z.rem x n = if x <? n then x else x - n.
Proof.
  intros x n P X. rewrite Z.rem_mod_nonneg by lia.
  destruct (Z.ltb_spec x n).
  - apply Z.mod_small; lia.
  - symmetry. apply Z.mod_unique with (q := 1); lia.
Qed.

(* Every communicator rank has a global rank, and translating back gives it. *)
Theorem rank_translation_partial : forall c r, args_ok c -> has_index c = false ->
  0 <= r < nproc c ->
  exists g, to_global c r = Some g /\ to_comm c g = Some r.
Proof.
  induction c as [n|l|d IH s|l n|n s|n st]; intros r A NI R; cbn [args_ok has_index nproc] in *.
  - exists r. split; reflexivity.
  - destruct A as [ND NE]. rewrite map_size_nodup in R by exact ND.
    destruct (vec_at_in l r R) as [g [E1 E2]]. exists g. split; [exact E1|].
    cbn [to_comm]. rewrite (map_find_nth l 0 _ g ND E2). f_equal. lia.
  - destruct A as [A S']. cbn [to_global to_comm].
    pose proof (nproc_pos d A) as P.
    assert (K : 0 <= Z.rem (r + s) (nproc d) < nproc d).
    { rewrite rem_wrap by lia. destruct (Z.ltb_spec (r + s) (nproc d)); lia. }
    destruct (IH _ A NI K) as [g [E1 E2]]. exists g. split; [exact E1|].
    rewrite E2. f_equal. rewrite (rem_wrap (r + s)) by lia.
    destruct (Z.ltb_spec (r + s) (nproc d)).
    + rewrite rem_wrap by lia. destruct (Z.ltb_spec (r + s - s + nproc d) (nproc d)); lia.
    + rewrite rem_wrap by lia.
      destruct (Z.ltb_spec (r + s - nproc d - s + nproc d) (nproc d)); lia.
  - discriminate.
  - exists (Z.rem (r + s) n). split; [reflexivity|]. cbn [to_comm]. f_equal.
    rewrite (rem_wrap (r + s)) by lia. destruct (Z.ltb_spec (r + s) n).
    + rewrite rem_wrap by lia. destruct (Z.ltb_spec (r + s + n - s) n); lia.
    + rewrite rem_wrap by lia. destruct (Z.ltb_spec (r + s - n + n - s) n); lia.
  - exists (r + st). split; [reflexivity|]. cbn [to_comm]. f_equal. lia.
Qed.
Print Assumptions rank_translation_partial.

(* Different members are different global ranks, Index communicators included. *)
Lemma index_injective : forall (l : list Z) r1 r2 g, NoDup l ->
  vec_at l r1 = Some g -> vec_at l r2 = Some g -> r1 = r2.
Proof.
  intros l r1 r2 g ND E1 E2. unfold vec_at in *.
  destruct (Z.ltb_spec r1 0); [discriminate|]. destruct (Z.ltb_spec r2 0); [discriminate|].
  assert (B1 : (Z.to_nat r1 < length l)%nat) by (apply nth_error_Some; congruence).
  rewrite NoDup_nth_error in ND.
  assert (Z.to_nat r1 = Z.to_nat r2) by (apply ND; [exact B1|congruence]). lia.
Qed.

Theorem members_injective : forall c r1 r2 g, args_ok c ->
  0 <= r1 < nproc c -> 0 <= r2 < nproc c ->
  to_global c r1 = Some g -> to_global c r2 = Some g -> r1 = r2.
Proof.
  induction c as [n|l|d IH s|l n|n s|n st]; intros r1 r2 g A R1 R2 E1 E2;
    cbn [args_ok nproc to_global] in *.
  - congruence.
  - apply (index_injective l r1 r2 g); tauto.
  - destruct A as [A S']. pose proof (nproc_pos d A) as P.
    assert (K : forall x, 0 <= x < nproc d -> 0 <= Z.rem (x + s) (nproc d) < nproc d).
    { intros x X. rewrite rem_wrap by lia. destruct (Z.ltb_spec (x + s) (nproc d)); lia. }
    pose proof (IH _ _ _ A (K _ R1) (K _ R2) E1 E2) as Q.
    rewrite !rem_wrap in Q by lia.
    destruct (Z.ltb_spec (r1 + s) (nproc d)), (Z.ltb_spec (r2 + s) (nproc d)); lia.
  - apply (index_injective l r1 r2 g); tauto.
  - assert (Q : Z.rem (r1 + s) n = Z.rem (r2 + s) n) by congruence.
    rewrite !rem_wrap in Q by lia.
    destruct (Z.ltb_spec (r1 + s) n), (Z.ltb_spec (r2 + s) n); lia.
  - injection E1 as <-. injection E2 as ?. lia.
Qed.
Print Assumptions members_injective.

(* A rank's own rank in a shifted communicator is the inverse of its position in the
   parent. *)
Theorem shifted_my_rank_ok : forall d s my g, args_ok (CShifted d s) ->
  0 <= my < nproc d -> to_global d my = Some g ->
  to_global (CShifted d s) (shifted_my_rank my d s) = Some g /\
  0 <= shifted_my_rank my d s < nproc d.
Proof.
  intros d s my g [A S'] M E. cbn [to_global]. unfold shifted_my_rank.
  pose proof (nproc_pos d A) as P.
  rewrite (rem_wrap (my - s + nproc d)) by lia.
  destruct (Z.ltb_spec (my - s + nproc d) (nproc d)).
  - split; [|lia]. rewrite rem_wrap by lia.
    destruct (Z.ltb_spec (my - s + nproc d + s) (nproc d)); [lia|].
    rewrite <- E. f_equal. lia.
  - split; [|lia]. rewrite rem_wrap by lia.
    destruct (Z.ltb_spec (my - s + nproc d - nproc d + s) (nproc d)); [|lia].
    rewrite <- E. f_equal. lia.
Qed.
Print Assumptions shifted_my_rank_ok.

(* An Index communicator cannot translate back at all; a shift beyond the size gives
   a negative rank. *)
Theorem rank_translation_refuted :
  (exists c r g, args_ok c /\ 0 <= r < nproc c /\ to_global c r = Some g /\ to_comm c g = None) /\
  (exists n s r g, 0 < n /\ 0 <= s /\ 0 <= r < n /\
     to_global (CRotate n s) r = Some g /\ to_comm (CRotate n s) g <> Some r).
Proof.
  split.
  - exists (CIndex [4; 7] 2), 1, 7. cbn. repeat split; try lia; try congruence.
    constructor; [intros [|[]]; discriminate|constructor; [intros []|constructor]].
  - exists 4, 9, 1, 2. repeat split; try lia. cbn. discriminate.
Qed.
Print Assumptions rank_translation_refuted.

(* Whatever the uninitialised memory held decides myCommRank() of a rotated or
   sub-range communicator: for every member there are contents that make it wrong. *)
Theorem my_rank_uninitialised_refuted :
  (forall n s my, 0 < n -> 0 <= s <= n -> 0 <= my < n ->
     exists junk_n junk_s, to_comm (CRotate n s) my <> Some (rotate_my_rank junk_n junk_s my)) /\
  (forall n st my, exists junk_st,
     to_comm (CSubrange n st) my <> Some (subrange_my_rank junk_st my)).
Proof.
  split.
  - intros n s my N S' M. cbn [to_comm]. unfold rotate_my_rank.
    exists (2 * n + 2), (my - n). 
    replace (my + (2 * n + 2) - (my - n)) with ((n) + 1 * (2 * n + 2)) by ring.
    rewrite (Z.rem_mod_nonneg (n + 1 * (2 * n + 2))) by lia.
    rewrite Z.mod_add by lia. rewrite (Z.mod_small n) by lia.
    intro K. injection K as K.
    pose proof (Z.rem_bound_pos (my + n - s) n ltac:(lia) N). lia.
  - intros n st my. exists (st + 1). cbn [to_comm]. unfold subrange_my_rank.
    intro K. injection K as K. lia.
Qed.
Print Assumptions my_rank_uninitialised_refuted.

Example rank_translation_example :
  args_ok (CShifted (CMap [9; 4; 6; 2; 0]) 2) /\
  to_global (CShifted (CMap [9; 4; 6; 2; 0]) 2) 4 = Some 4 /\
  to_comm (CShifted (CMap [9; 4; 6; 2; 0]) 2) 4 = Some 4 /\
  to_global (CShifted (CMap [9; 4; 6; 2; 0]) 2) 1 = Some 2.
Proof.
  repeat split; try (cbn; lia); try congruence; try reflexivity.
  repeat constructor; cbn; lia.
Qed.

Close Scope Z_scope.

(* ---------- C87 ---------- *)

(* The number of the communicator's ranks on a node. *)
Definition on_node (node : nat -> nat) (members : list nat) (n : nat) : nat :=
  length (filter (fun g => Nat.eqb (node g) n) members).

Lemma count_map : forall (f : nat -> nat) k l,
  count k (map f l) = length (filter (fun g => Nat.eqb k (f g)) l).
Proof.
  intros f k l. unfold count. induction l as [|x l IH]; [reflexivity|].
  cbn [map filter]. destruct (Nat.eqb k (f x)); cbn [length]; rewrite IH; reflexivity.
Qed.

Section Smp.
Variable nranks : nat.
Variable node : nat -> nat.
Variable members : list nat.
Hypothesis ND : NoDup members.
Hypothesis IN : forall g, In g members -> g < nranks.

Local Notation sub := (subset nranks node members).
Local Notation srank := (smp_rank nranks node members).

Lemma subset_in : forall g x, In x (sub g) <-> In x members /\ node x = node g.
Proof.
  intros g x. unfold subset, neighbors. rewrite !filter_In, in_seq, existsb_exists.
  split.
  - intros [[B E] [y [Hy Ey]]]. apply Nat.eqb_eq in E, Ey. subst y. auto.
  - intros [M E]. rewrite Nat.eqb_eq. split.
    + pose proof (IN x M). split; [lia|exact E].
    + exists x. split; [exact M|apply Nat.eqb_refl].
Qed.

Lemma nodup_filter' : forall A (f : A -> bool) l, NoDup l -> NoDup (filter f l).
Proof. intros. apply NoDup_filter. auto. Qed.

Lemma subset_nodup : forall g, NoDup (sub g).
Proof. intro g. unfold subset, neighbors. apply NoDup_filter, NoDup_filter, seq_NoDup. Qed.

Lemma subset_same : forall g h, node g = node h -> sub g = sub h.
Proof. intros g h E. unfold subset, neighbors. rewrite E. reflexivity. Qed.

Lemma filter_sorted : forall (f : nat -> bool) l, StronglySorted lt l -> StronglySorted lt (filter f l).
Proof.
  intros f l H; induction H as [|x l H IH F]; cbn [filter]; [constructor|].
  destruct (f x); [|exact IH]. constructor; [exact IH|].
  rewrite Forall_forall in *. intros y Hy. apply filter_In in Hy. apply F, Hy.
Qed.

Lemma seq_sorted : forall n a, StronglySorted lt (seq a n).
Proof.
  induction n as [|n IH]; intro a; cbn; constructor; [apply IH|].
  rewrite Forall_forall. intros x Hx. apply in_seq in Hx. lia.
Qed.

Lemma subset_sorted : forall g, StronglySorted lt (sub g).
Proof. intro g. unfold subset, neighbors. apply filter_sorted, filter_sorted, seq_sorted. Qed.

Lemma smp_loop_absent : forall l me i k, ~ In me l -> smp_loop l me i k = k.
Proof.
  induction l as [|x l IH]; intros me i k N; cbn; [reflexivity|].
  destruct (Nat.eqb_spec x me); [exfalso; apply N; left; auto|].
  apply IH. intro; apply N; right; auto.
Qed.

Lemma smp_loop_nth : forall l me i k, NoDup l -> In me l ->
  exists j, smp_loop l me i k = i + j /\ nth_error l j = Some me.
Proof.
  induction l as [|x l IH]; intros me i k N M; [destruct M|].
  inversion N as [|? ? N1 N2]; subst. cbn [smp_loop].
  destruct (Nat.eqb_spec x me) as [->|NE].
  - exists 0. rewrite smp_loop_absent by exact N1. split; [lia|reflexivity].
  - destruct M as [->|M]; [congruence|].
    destruct (IH me (S i) k N2 M) as [j [J1 J2]]. exists (S j). split; [lia|exact J2].
Qed.

Lemma srank_nth : forall g, In g members -> nth_error (sub g) (srank g) = Some g.
Proof.
  intros g G.
  destruct (smp_loop_nth (sub g) g 0 0 (subset_nodup g)) as [j [J1 J2]].
  - apply subset_in. auto.
  - unfold smp_rank. rewrite J1. exact J2.
Qed.

Lemma srank_lt : forall g, In g members -> srank g < length (sub g).
Proof. intros g G. apply nth_error_Some. rewrite srank_nth by exact G. discriminate. Qed.

Lemma srank_inj : forall g h, In g members -> In h members ->
  node g = node h -> srank g = srank h -> g = h.
Proof.
  intros g h G H E K. pose proof (srank_nth g G) as A. pose proof (srank_nth h H) as B.
  rewrite (subset_same g h E), K in A. congruence.
Qed.

Lemma srank_surj : forall g k, k < length (sub g) ->
  exists h, In h members /\ node h = node g /\ srank h = k.
Proof.
  intros g k K. destruct (nth_error (sub g) k) as [h|] eqn:E.
  2:{ apply nth_error_None in E. lia. }
  assert (Hin : In h (sub g)) by (apply nth_error_In with (1 := E)).
  apply subset_in in Hin. destruct Hin as [M N]. exists h. repeat split; auto.
  pose proof (srank_nth h M) as A. rewrite (subset_same h g N) in A.
  pose proof (subset_nodup g) as D. rewrite NoDup_nth_error in D. symmetry. apply D; [exact K|congruence].
Qed.

(* smp rank 0 is the lowest rank on the node *)
Lemma srank_zero : forall g, In g members ->
  (srank g = 0 <-> forall h, In h members -> node h = node g -> g <= h).
Proof.
  intros g G. pose proof (srank_nth g G) as A. pose proof (subset_sorted g) as SS.
  split.
  - intros Z h H E. rewrite Z in A. destruct (sub g) as [|x l] eqn:Q; [discriminate|].
    cbn in A. injection A as ->.
    assert (Hin : In h (sub g)) by (apply subset_in; auto). rewrite Q in Hin.
    destruct Hin as [->|Hin]; [lia|].
    inversion SS as [|? ? _ F]; subst. rewrite Forall_forall in F. specialize (F h Hin). lia.
  - intro L. destruct (sub g) as [|x l] eqn:Q; [destruct (srank g); discriminate|].
    assert (X : In x (sub g)) by (rewrite Q; left; reflexivity).
    apply subset_in in X. destruct X as [X1 X2]. specialize (L x X1 X2).
    destruct (srank g) as [|k] eqn:K; [reflexivity|]. cbn in A. apply nth_error_In in A.
    inversion SS as [|? ? _ F]; subst. rewrite Forall_forall in F. specialize (F g A). lia.
Qed.

Lemma length_subset : forall g, length (sub g) = on_node node members (node g).
Proof.
  intro g. unfold on_node. apply Nat.le_antisymm; apply NoDup_incl_length.
  - apply subset_nodup.
  - intros x Hx. apply subset_in in Hx. apply filter_In. rewrite Nat.eqb_eq. tauto.
  - apply NoDup_filter, ND.
  - intros x Hx. apply filter_In in Hx. rewrite Nat.eqb_eq in Hx. apply subset_in. tauto.
Qed.

Definition with_rank (k : nat) : list nat := filter (fun g => Nat.eqb k (srank g)) members.

Lemma count_with_rank : forall k, count k (map srank members) = length (with_rank k).
Proof.
  intro k. apply count_map.
Qed.

(* the lowest rank of g's node *)
Definition own (g : nat) : nat := nth 0 (sub g) 0.

Lemma own_spec : forall g, In g members ->
  In (own g) members /\ node (own g) = node g /\ srank (own g) = 0.
Proof.
  intros g G. destruct (srank_surj g 0) as [h [H1 [H2 H3]]].
  - pose proof (srank_lt g G). lia.
  - pose proof (srank_nth h H1) as A. rewrite H3, (subset_same h g H2) in A.
    assert (own g = h).
    { unfold own. destruct (sub g); [discriminate|]. cbn in *. congruence. }
    subst h. auto.
Qed.

Lemma own_map_nodup : forall k, NoDup (map own (with_rank k)).
Proof.
  intro k.
  assert (G : forall l, NoDup l -> (forall x, In x l -> In x members /\ srank x = k) ->
    NoDup (map own l)).
  { induction l as [|x l IH]; intros N H; cbn [map]; [constructor|].
    inversion N as [|? ? N1 N2]; subst. constructor; [|apply IH; [exact N2|intros; apply H; right; auto]].
    intro K. apply in_map_iff in K. destruct K as [y [Y1 Y2]].
    destruct (H x (or_introl eq_refl)) as [X1 X2]. destruct (H y (or_intror Y2)) as [Y3 Y4].
    destruct (own_spec x X1) as [_ [NX _]]. destruct (own_spec y Y3) as [_ [NY _]].
    assert (x = y) by (apply srank_inj; auto; congruence). subst y. auto. }
  apply G; [apply NoDup_filter, ND|]. intros x Hx. apply filter_In in Hx.
  destruct Hx as [A B]. apply Nat.eqb_eq in B. auto.
Qed.

Lemma own_map_incl : forall k, incl (map own (with_rank k)) (with_rank 0).
Proof.
  intros k x Hx. apply in_map_iff in Hx. destruct Hx as [g [<- G]].
  apply filter_In in G. destruct G as [G _]. destruct (own_spec g G) as [A [_ B]].
  apply filter_In. split; [exact A|]. rewrite B. reflexivity.
Qed.

(* The flag computed by a node owner is exactly "all nodes hold equally many". *)
Lemma balanced_flag_spec :
  balanced_flag (map srank members) = true <->
  forall g h, In g members -> In h members ->
    on_node node members (node g) = on_node node members (node h).
Proof.
  unfold balanced_flag. rewrite forallb_forall. split.
  - intros F.
    assert (W : forall g h, In g members -> In h members -> length (sub g) <= length (sub h)).
    { intros g h G H. destruct (le_gt_dec (length (sub g)) (length (sub h))) as [L|L]; [exact L|].
      pose proof (srank_lt g G) as PG.
      destruct (srank_surj g (length (sub g) - 1)) as [x [X1 [X2 X3]]]; [lia|].
      assert (K : In (srank x) (map srank members)) by (apply in_map, X1).
      specialize (F _ K). apply Nat.eqb_eq in F. rewrite !count_with_rank, X3 in F.
      assert (I2 : incl (with_rank 0) (map own (with_rank (length (sub g) - 1)))).
      { apply NoDup_length_incl; [apply own_map_nodup|rewrite map_length; lia|apply own_map_incl]. }
      destruct (own_spec h H) as [O1 [O2 O3]].
      assert (J : In (own h) (with_rank 0)) by (apply filter_In; rewrite O3; auto).
      apply I2, in_map_iff in J. destruct J as [y [Y1 Y2]]. apply filter_In in Y2.
      destruct Y2 as [Y2 Y3]. apply Nat.eqb_eq in Y3.
      destruct (own_spec y Y2) as [_ [Ny _]].
      pose proof (srank_lt y Y2) as Ly. rewrite <- Y3 in Ly.
      rewrite (subset_same y h) in Ly by congruence. lia. }
    intros g h G H. rewrite <- !length_subset. pose proof (W g h G H). pose proof (W h g H G). lia.
  - intros B k K. apply in_map_iff in K. destruct K as [g [<- G]].
    apply Nat.eqb_eq. rewrite !count_with_rank.
    apply Nat.le_antisymm.
    + rewrite <- (map_length own (with_rank (srank g))).
      apply NoDup_incl_length; [apply own_map_nodup|apply own_map_incl].
    + rewrite <- (map_length own (with_rank (srank g))).
      apply NoDup_incl_length; [apply NoDup_filter, ND|].
      intros o O. apply filter_In in O. destruct O as [O1 O2]. apply Nat.eqb_eq in O2.
      pose proof (srank_lt g G) as L. rewrite length_subset, (B g o G O1), <- length_subset in L.
      destruct (srank_surj o _ L) as [y [Y1 [Y2 Y3]]].
      apply in_map_iff. exists y. split.
      * destruct (own_spec y Y1) as [A1 [A2 A3]]. apply srank_inj; auto; congruence.
      * apply filter_In. rewrite Y3. split; [exact Y1|apply Nat.eqb_refl].
Qed.

(* owner_loop: the owners in communicator order, with this rank's place among them *)
Lemma owner_loop_list : forall l rank me idx mo,
  fst (owner_loop rank me idx mo (combine l (map srank l))) =
  filter (fun g => Nat.eqb (srank g) 0) l.
Proof.
  induction l as [|g l IH]; intros rank me idx mo; cbn [map combine owner_loop filter]; [reflexivity|].
  destruct (Nat.eqb (srank g) 0); [|apply IH].
  destruct (owner_loop (S rank) me (S idx) _ _) as [a b] eqn:E. cbn [fst].
  f_equal. rewrite <- (IH (S rank) me (S idx) (if Nat.eqb rank me then Z.of_nat idx else mo)).
  rewrite E. reflexivity.
Qed.

Lemma owner_loop_keep : forall l rank me idx mo, me < rank ->
  snd (owner_loop rank me idx mo (combine l (map srank l))) = mo.
Proof.
  induction l as [|g l IH]; intros rank me idx mo L; cbn [map combine owner_loop]; [reflexivity|].
  destruct (Nat.eqb (srank g) 0).
  - destruct (Nat.eqb_spec rank me); [lia|].
    destruct (owner_loop (S rank) me (S idx) mo _) as [a b] eqn:E. cbn [snd].
    rewrite <- (IH (S rank) me (S idx) mo) by lia. rewrite E. reflexivity.
  - apply IH. lia.
Qed.

Lemma owner_loop_mine : forall l rank me idx mo g, rank <= me ->
  nth_error l (me - rank) = Some g -> srank g = 0 ->
  exists j, snd (owner_loop rank me idx mo (combine l (map srank l))) = Z.of_nat (idx + j) /\
    nth_error (filter (fun x => Nat.eqb (srank x) 0) l) j = Some g.
Proof.
  induction l as [|x l IH]; intros rank me idx mo g L E Z0; [destruct (me - rank); discriminate|].
  cbn [map combine owner_loop filter].
  destruct (Nat.eq_dec rank me) as [->|NE].
  - rewrite Nat.sub_diag in E. cbn in E. injection E as ->.
    rewrite (proj2 (Nat.eqb_eq _ _) Z0), Nat.eqb_refl.
    destruct (owner_loop (S me) me (S idx) (Z.of_nat idx) _) as [a b] eqn:Q. cbn [snd].
    exists 0. split; [|reflexivity].
    pose proof (owner_loop_keep l (S me) me (S idx) (Z.of_nat idx) ltac:(lia)) as K.
    rewrite Q in K. cbn in K. rewrite K. f_equal. lia.
  - assert (E' : nth_error l (me - S rank) = Some g).
    { replace (me - rank) with (S (me - S rank)) in E by lia. exact E. }
    destruct (Nat.eqb_spec (srank x) 0) as [X|X].
    + destruct (IH (S rank) me (S idx) (if Nat.eqb rank me then Z.of_nat idx else mo) g
                   ltac:(lia) E' Z0) as [j [J1 J2]].
      destruct (owner_loop (S rank) me (S idx) _ _) as [a b] eqn:Q. cbn [snd] in *.
      exists (S j). split; [rewrite J1; f_equal; lia|exact J2].
    + apply (IH (S rank) me idx mo g); auto; lia.
Qed.

(* Every rank of the communicator has company on its node. *)
Definition paired : Prop := forall g, In g members -> 1 < on_node node members (node g).

Lemma paired_joins : paired ->
  forall r, r < length members ->
  create nranks node members r =
    Smp (smp_view nranks node members (map srank members) r).
Proof.
  intros P r R. unfold create.
  assert (J : forall g, In g members -> joins nranks node members g = true).
  { intros g G. unfold joins. apply Nat.ltb_lt. rewrite length_subset. apply P, G. }
  rewrite J by (apply nth_In, R).
  rewrite (proj2 (forallb_forall _ _) J). reflexivity.
Qed.

(* C87: the pieces of the SMP communicators fit together. *)
Theorem smp_groups : paired -> forall r, r < length members ->
  exists v, create nranks node members r = Smp v /\
  let g := nth r members 0 in
  (* the SMP communicator is the communicator's ranks on this node, ascending *)
  StronglySorted lt (v_smp v) /\
  (forall x, In x (v_smp v) <-> In x members /\ node x = node g) /\
  nth_error (v_smp v) (v_smp_rank v) = Some g /\
  (* only the lowest rank of a node owns it *)
  (v_owner v <> None <-> forall x, In x members -> node x = node g -> g <= x) /\
  (* the owners are the lowest ranks of the nodes, and each knows its place *)
  (forall l k, v_owner v = Some (l, k) ->
     (forall x, In x l <-> In x members /\
        forall y, In y members -> node y = node x -> x <= y) /\
     l = filter (fun x => Nat.eqb (srank x) 0) members /\
     (0 <= k)%Z /\ nth_error l (Z.to_nat k) = Some g).
Proof.
  intros P r R. exists (smp_view nranks node members (map srank members) r).
  split; [apply paired_joins; auto|].
  set (g := nth r members 0).
  assert (G : In g members) by (apply nth_In, R).
  unfold smp_view. cbn [v_smp v_smp_rank v_owner]. fold g.
  split; [apply subset_sorted|]. split; [apply subset_in|]. split; [apply srank_nth, G|].
  split.
  - destruct (Nat.eqb_spec (srank g) 0) as [E|E].
    + split; [intros _; apply srank_zero; auto|discriminate].
    + split; [congruence|]. intro H. exfalso. apply E, srank_zero; auto.
  - intros l k H. destruct (Nat.eqb_spec (srank g) 0) as [E|E]; [|discriminate].
    injection H as H.
    assert (L : l = filter (fun x => Nat.eqb (srank x) 0) members)
      by (rewrite <- (owner_loop_list members 0 r 0 (-1)%Z), H; reflexivity).
    destruct (owner_loop_mine members 0 r 0 (-1)%Z g ltac:(lia)) as [j [J1 J2]]; auto.
    { rewrite Nat.sub_0_r. apply nth_error_nth' with (d := 0). exact R. }
    rewrite H in J1. cbn in J1.
    split; [|split; [exact L|split; [lia|rewrite J1, L, Nat2Z.id; exact J2]]].
    intro x. rewrite L, filter_In, Nat.eqb_eq. split.
    + intros [X1 X2]. split; [exact X1|]. apply srank_zero; auto.
    + intros [X1 X2]. split; [exact X1|]. apply srank_zero; auto.
Qed.

(* Ranks on the same node hold the same SMP communicator. *)
Theorem smp_agree : paired -> forall r1 r2 v1 v2,
  r1 < length members -> r2 < length members ->
  node (nth r1 members 0) = node (nth r2 members 0) ->
  create nranks node members r1 = Smp v1 -> create nranks node members r2 = Smp v2 ->
  v_smp v1 = v_smp v2 /\ (v_smp_rank v1 = v_smp_rank v2 -> r1 = r2).
Proof.
  intros P r1 r2 v1 v2 R1 R2 E C1 C2.
  rewrite paired_joins in C1, C2 by auto. injection C1 as <-. injection C2 as <-.
  unfold smp_view; cbn [v_smp v_smp_rank]. split; [apply subset_same, E|].
  intro K. assert (Q : nth r1 members 0 = nth r2 members 0).
  { apply srank_inj; auto; apply nth_In; auto. }
  apply (proj1 (NoDup_nth members 0) ND); auto.
Qed.

(* The owners' balance flag says whether all nodes hold equally many ranks.  The
   other ranks' flag is always set, see smp_balanced_refuted. *)
Theorem smp_balanced_partial : paired -> forall r v, r < length members ->
  create nranks node members r = Smp v -> v_owner v <> None ->
  (v_balanced v = true <->
   forall g h, In g members -> In h members ->
     on_node node members (node g) = on_node node members (node h)).
Proof.
  intros P r v R C O. rewrite paired_joins in C by auto. injection C as <-.
  unfold smp_view in *; cbn [v_owner v_balanced] in *.
  destruct (Nat.eqb (srank (nth r members 0)) 0); [|congruence].
  apply balanced_flag_spec.
Qed.

End Smp.
Print Assumptions smp_groups.
Print Assumptions smp_agree.
Print Assumptions smp_balanced_partial.

(* Three ranks on node 0 and two on node 1: the owners see the imbalance, the other
   ranks do not, so the ranks of one node take different branches of the SMP
   allgather and alltoall. *)
Theorem smp_balanced_refuted : exists nranks node members,
  NoDup members /\ (forall g, In g members -> g < nranks) /\ paired node members /\
  exists r1 r2 v1 v2, node (nth r1 members 0) = node (nth r2 members 0) /\
    create nranks node members r1 = Smp v1 /\ create nranks node members r2 = Smp v2 /\
    v_balanced v1 = false /\ v_balanced v2 = true.
Proof.
  exists 5, (fun g => if g <? 3 then 0 else 1), [0; 1; 2; 3; 4].
  split; [apply (seq_NoDup 5 0)|]. split; [intros g G; cbn in G; lia|].
  split.
  { intros g G. cbn in G. destruct G as [<-|[<-|[<-|[<-|[<-|[]]]]]]; cbn; lia. }
  exists 0, 1. eexists; eexists.
  split; [reflexivity|]. split; [vm_compute; reflexivity|]. split; [vm_compute; reflexivity|].
  split; reflexivity.
Qed.
Print Assumptions smp_balanced_refuted.

(* One rank alone on its node, two together on another: the two wait for ever. *)
Theorem smp_create_stuck_refuted : exists nranks node members r,
  NoDup members /\ (forall g, In g members -> g < nranks) /\ r < length members /\
  create nranks node members r = Stuck.
Proof.
  exists 3, (fun g => if g <? 2 then 0 else 1), [0; 1; 2], 1.
  split; [apply (seq_NoDup 3 0)|]. split; [intros g G; cbn in G; lia|].
  split; [cbn; lia|reflexivity].
Qed.
Print Assumptions smp_create_stuck_refuted.

(* Six ranks round robin over two nodes, in a communicator that reverses them. *)
Example smp_example :
  let node := fun g => Nat.modulo g 2 in
  let members := [5; 4; 3; 2; 1; 0] in
  paired node members /\
  create 6 node members 1 =
    Smp {| v_smp := [0; 2; 4]; v_smp_rank := 2; v_owner := None; v_balanced := true |} /\
  create 6 node members 5 =
    Smp {| v_smp := [0; 2; 4]; v_smp_rank := 0; v_owner := Some ([1; 0], 1%Z);
           v_balanced := true |}.
Proof.
  split; [|split; reflexivity].
  intros g G. cbn in G.
  destruct G as [<-|[<-|[<-|[<-|[<-|[<-|[]]]]]]]; cbn; lia.
Qed.
