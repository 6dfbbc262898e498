(** Facts about the launch model: sets, shuffles, allocators and mappers. *)
From Coq Require Import List Arith Bool ZArith Lia Permutation Sorted.
From Verif Require Import ListFacts LnModel.
Import ListNotations.

Notation sorted := (StronglySorted lt).

(** ** Sets *)

Lemma smem_in x l : smem x l = true <-> In x l.
Proof.
  induction l as [|y r IH]; simpl; [split; [discriminate|tauto]|].
  rewrite orb_true_iff, Nat.eqb_eq, IH. split; intros [H|H]; auto.
Qed.

Lemma smem_not x l : smem x l = false <-> ~ In x l.
Proof. rewrite <- smem_in. destruct (smem x l); split; intros; congruence. Qed.

Lemma sinsert_in x l y : In y (sinsert x l) <-> y = x \/ In y l.
Proof.
  induction l as [|z r IH]; simpl; [split; intros [H|H]; auto; tauto|].
  destruct (x <? z); simpl; [split; intros [H|H]; auto; tauto|].
  destruct (x =? z) eqn:E; simpl.
  - apply Nat.eqb_eq in E. subst. split; [tauto|]. intros [H|[H|H]]; auto.
  - rewrite IH. tauto.
Qed.

Lemma sinsert_sorted x l : sorted l -> sorted (sinsert x l).
Proof.
  induction 1 as [|z r S IH F]; simpl; [repeat constructor|].
  destruct (x <? z) eqn:E.
  - apply Nat.ltb_lt in E. constructor; [constructor; assumption|].
    constructor; [assumption|]. eapply Forall_impl; [|exact F]. simpl. lia.
  - destruct (x =? z) eqn:E2; [constructor; assumption|].
    apply Nat.ltb_ge in E. apply Nat.eqb_neq in E2.
    constructor; [assumption|]. apply Forall_forall. intros y Hy.
    apply sinsert_in in Hy. destruct Hy as [->|Hy]; [lia|].
    rewrite Forall_forall in F. auto.
Qed.

Lemma sorted_nodup l : sorted l -> NoDup l.
Proof.
  induction 1 as [|z r S IH F]; constructor; auto.
  intro H. rewrite Forall_forall in F. specialize (F z H). lia.
Qed.

Lemma sinsert_perm x l : ~ In x l -> Permutation (sinsert x l) (x :: l).
Proof.
  induction l as [|z r IH]; simpl; intro N; [auto|].
  destruct (x <? z); [auto|]. destruct (x =? z) eqn:E.
  - apply Nat.eqb_eq in E. subst. tauto.
  - rewrite IH by tauto. apply perm_swap.
Qed.

Lemma sinsert_all_in xs l y : In y (sinsert_all xs l) <-> In y xs \/ In y l.
Proof.
  unfold sinsert_all. revert l. induction xs as [|x r IH]; intro l; simpl; [tauto|].
  rewrite IH, sinsert_in. split; intros H; intuition auto.
Qed.

Lemma sinsert_all_sorted xs l : sorted l -> sorted (sinsert_all xs l).
Proof.
  unfold sinsert_all. revert l. induction xs as [|x r IH]; intros l H; simpl; auto.
  apply IH. apply sinsert_sorted, H.
Qed.

Lemma sinsert_all_perm xs l : NoDup (xs ++ l) -> Permutation (sinsert_all xs l) (xs ++ l).
Proof.
  unfold sinsert_all. revert l. induction xs as [|x r IH]; intros l H; simpl; auto.
  simpl in H. inversion H as [|? ? N D]; subst.
  assert (Q: Permutation (sinsert x l) (x :: l)).
  { apply sinsert_perm. intro K. apply N, in_or_app. auto. }
  rewrite IH; [|apply (Permutation_NoDup (l := x :: r ++ l)); [|exact H]].
  - rewrite Q. symmetry. apply Permutation_middle.
  - rewrite Q. apply Permutation_middle.
Qed.

Lemma serase_in x l y : sorted l -> (In y (serase x l) <-> In y l /\ y <> x).
Proof.
  induction 1 as [|z r S IH F]; simpl; [tauto|].
  rewrite Forall_forall in F.
  destruct (x =? z) eqn:E.
  - apply Nat.eqb_eq in E. subst. split.
    + intro H. specialize (F y H). split; [auto|lia].
    + intros [[H|H] N]; [congruence|auto].
  - apply Nat.eqb_neq in E. simpl. rewrite IH. split.
    + intros [H|[H N]]; [subst; split; auto|auto].
    + intros [[H|H] N]; auto.
Qed.

Lemma serase_sorted x l : sorted l -> sorted (serase x l).
Proof.
  induction 1 as [|z r S IH F]; simpl; [constructor|].
  destruct (x =? z); [assumption|]. constructor; [assumption|].
  rewrite Forall_forall in *. intros y Hy. apply serase_in in Hy; [|exact S].
  apply F. tauto.
Qed.

Lemma serase_perm x l : In x l -> Permutation l (x :: serase x l).
Proof.
  induction l as [|z r IH]; simpl; intro H; [tauto|].
  destruct (x =? z) eqn:E.
  - apply Nat.eqb_eq in E. subst. auto.
  - apply Nat.eqb_neq in E. destruct H as [H|H]; [congruence|].
    rewrite perm_swap. constructor. auto.
Qed.

Lemma sorted_ext l1 l2 : sorted l1 -> sorted l2 -> (forall x, In x l1 <-> In x l2) -> l1 = l2.
Proof.
  intros S1. revert l2. induction S1 as [|a r S IH F]; intros l2 S2 E.
  - destruct l2 as [|b l2]; [reflexivity|]. exfalso. apply (E b). simpl. auto.
  - destruct S2 as [|b r2 S2 F2]; [exfalso; apply (E a); simpl; auto|].
    rewrite Forall_forall in F, F2.
    assert (a = b).
    { destruct (E a) as [E1 _]. destruct (E b) as [_ E2].
      destruct (E1 (or_introl eq_refl)) as [H|H]; [auto|].
      destruct (E2 (or_introl eq_refl)) as [K|K]; [auto|].
      specialize (F b K). specialize (F2 a H). lia. }
    subst b. f_equal. apply IH; [assumption|]. intro x. split; intro H.
    + destruct (E x) as [E1 _]. destruct (E1 (or_intror H)) as [K|K]; [|exact K].
      subst. specialize (F x H). lia.
    + destruct (E x) as [_ E1]. destruct (E1 (or_intror H)) as [K|K]; [|exact K].
      subst. specialize (F2 x H). lia.
Qed.

Lemma seq_sorted a n : sorted (seq a n).
Proof.
  revert a. induction n as [|n IH]; intro a; simpl; constructor; auto.
  apply Forall_forall. intros x Hx. apply in_seq in Hx. lia.
Qed.

(** [take_nodes] removes the nodes, or refuses. *)
Lemma take_nodes_spec alloc : forall avail av, sorted avail ->
  take_nodes alloc avail = Some av ->
  sorted av /\ Permutation avail (alloc ++ av).
Proof.
  induction alloc as [|n r IH]; intros avail av S H; simpl in *.
  - injection H as <-. auto.
  - destruct (smem n avail) eqn:M; [|discriminate]. apply smem_in in M.
    apply IH in H; [|apply serase_sorted, S]. destruct H as [S2 P]. split; [exact S2|].
    rewrite (serase_perm n avail M). rewrite P. reflexivity.
Qed.

(** ** Shuffles *)

Lemma vset_length {A} (l : list A) i v : length (vset l i v) = length l.
Proof. revert i. induction l; destruct i; simpl; auto. Qed.

Lemma vset_nth {A} (l : list A) i j v d :
  nth j (vset l i v) d = if (i =? j) && (i <? length l) then v else nth j l d.
Proof.
  revert i j. induction l as [|x r IH]; intros i j; [destruct i, j; simpl; rewrite ?andb_false_r; reflexivity|].
  destruct i, j; cbn [vset nth]; try reflexivity. rewrite IH. reflexivity.
Qed.

Lemma vset_count l i v x : i < length l ->
  count_occ Nat.eq_dec (vset l i v) x + (if Nat.eq_dec (nth i l 0) x then 1 else 0) =
  count_occ Nat.eq_dec l x + (if Nat.eq_dec v x then 1 else 0).
Proof.
  revert i. induction l as [|y r IH]; intros i H; simpl in H; [lia|].
  destruct i as [|i]; cbn [vset nth count_occ].
  - destruct (Nat.eq_dec y x), (Nat.eq_dec v x); lia.
  - specialize (IH i ltac:(lia)). destruct (Nat.eq_dec y x); lia.
Qed.

Lemma vswap_perm l i j : i < length l -> j < length l -> Permutation (vswap l i j) l.
Proof.
  intros Hi Hj. apply (Permutation_count_occ Nat.eq_dec). intro x. unfold vswap.
  pose proof (vset_count l i (nth j l 0) x Hi) as A.
  pose proof (vset_count (vset l i (nth j l 0)) j (nth i l 0) x) as B.
  rewrite vset_length in B. specialize (B Hj).
  rewrite vset_nth in B. apply Nat.ltb_lt in Hi. rewrite Hi, andb_true_r in B.
  destruct (i =? j) eqn:E.
  - apply Nat.eqb_eq in E. subst. lia.
  - lia.
Qed.

Lemma shuffle_from_perm draw i : forall l, i < length l \/ i = 0 ->
  Permutation (shuffle_from draw i l) l.
Proof.
  induction i as [|i IH]; intros l H; cbn [shuffle_from]; [auto|].
  destruct H as [H|H]; [|discriminate].
  assert (J: draw (S i) mod (i + 1 + 1) < length l).
  { pose proof (Nat.mod_upper_bound (draw (S i)) (i+1+1) ltac:(lia)). lia. }
  assert (P: Permutation (vswap l (S i) (draw (S i) mod (i+1+1))) l).
  { apply vswap_perm; [exact H|exact J]. }
  replace (S i + 1) with (i+1+1) by lia.
  rewrite IH; [exact P|]. left. rewrite (Permutation_length P). lia.
Qed.

Lemma shuffle_perm draw l : Permutation (shuffle draw l) l.
Proof. apply shuffle_from_perm. lia. Qed.

(** ** Allocators *)

Lemma sinsert_end a x : Forall (fun y => y < x) a -> sinsert x a = a ++ [x].
Proof.
  induction 1 as [|y r H F IH]; simpl; [reflexivity|].
  destruct (x <? y) eqn:E; [apply Nat.ltb_lt in E; lia|].
  destruct (x =? y) eqn:E2; [apply Nat.eqb_eq in E2; lia|]. rewrite IH. reflexivity.
Qed.

Lemma list_max_in l x : In x l -> x <= list_max l.
Proof.
  intro H. pose proof (proj1 (list_max_le l (list_max l)) (Nat.le_refl _)) as F.
  rewrite Forall_forall in F. auto.
Qed.

Lemma fa_loop_spec need fuel : forall avail a b nid,
  avail = a ++ b -> Forall (fun y => y < nid) a -> Forall (fun y => nid <= y) b -> sorted b ->
  length a <= need <= length avail -> list_max avail < nid + fuel ->
  fa_loop avail need fuel nid (length a) a = Some (firstn need avail).
Proof.
  induction fuel as [|f IH]; intros avail a b nid E Fa Fb Sb L M; simpl.
  - destruct (need <=? length a) eqn:N.
    + apply Nat.leb_le in N. rewrite E, firstn_app.
      replace (need - length a) with 0 by lia. rewrite firstn_all2 by lia.
      rewrite firstn_O, app_nil_r. reflexivity.
    + apply Nat.leb_gt in N. exfalso. destruct b as [|y b].
      * rewrite E, app_nil_r in L. lia.
      * inversion Fb; subst. assert (In y (a ++ y :: b)) as I by (apply in_or_app; simpl; auto).
        apply list_max_in in I. lia.
  - destruct (need <=? length a) eqn:N.
    + apply Nat.leb_le in N. rewrite E, firstn_app.
      replace (need - length a) with 0 by lia. rewrite firstn_all2 by lia.
      rewrite firstn_O, app_nil_r. reflexivity.
    + apply Nat.leb_gt in N. rewrite Forall_forall in Fa, Fb.
      destruct (smem nid avail) eqn:S1.
      * apply smem_in in S1. rewrite E in S1. apply in_app_or in S1.
        destruct S1 as [S1|S1]; [specialize (Fa nid S1); lia|].
        destruct b as [|y b]; [destruct S1|].
        assert (y = nid).
        { destruct S1 as [S1|S1]; [auto|]. inversion Sb as [|? ? ? F]; subst.
          rewrite Forall_forall in F. specialize (F nid S1).
          specialize (Fb y (or_introl eq_refl)). lia. }
        subst y. rewrite sinsert_end by (apply Forall_forall; exact Fa).
        replace (S (length a)) with (length (a ++ [nid])) by (rewrite app_length; simpl; lia).
        inversion Sb as [|? ? Sb' Fb']; subst.
        apply IH with (b := b).
        -- rewrite <- app_assoc. reflexivity.
        -- apply Forall_forall. intros z Hz. apply in_app_or in Hz.
           destruct Hz as [Hz|[Hz|[]]]; [specialize (Fa z Hz); lia|subst; lia].
        -- eapply Forall_impl; [|exact Fb']. simpl. lia.
        -- exact Sb'.
        -- rewrite (app_length a [nid]). rewrite app_length in L |- *. cbn [length] in *. lia.
        -- lia.
      * apply smem_not in S1. apply IH with (b := b); auto; try lia.
        -- apply Forall_forall. intros z Hz. specialize (Fa z Hz). lia.
        -- apply Forall_forall. intros z Hz. specialize (Fb z Hz).
           assert (z <> nid); [|lia]. intros ->. apply S1. rewrite E. apply in_or_app. auto.
Qed.

Lemma first_available_spec nn avail : sorted avail ->
  first_available nn avail = if length avail <? nn then None else Some (firstn nn avail).
Proof.
  intro S. unfold first_available. destruct (length avail <? nn) eqn:L; [reflexivity|].
  apply Nat.ltb_ge in L.
  apply fa_loop_spec with (a := []) (b := avail); auto; simpl; try lia.
  apply Forall_forall. intros; lia.
Qed.

Lemma firstn_sorted n l : sorted l -> sorted (firstn n l).
Proof.
  intro S. revert n. induction S as [|a r S IH F]; intro n; destruct n; simpl; try constructor; auto.
  rewrite Forall_forall in *. intros x Hx. apply F. rewrite <- (firstn_skipn n r).
  apply in_or_app. auto.
Qed.

Lemma firstn_incl {A} n (l : list A) : incl (firstn n l) l.
Proof. intros x Hx. rewrite <- (firstn_skipn n l). apply in_or_app. auto. Qed.

Lemma firstn_nodup {A} n (l : list A) : NoDup l -> NoDup (firstn n l).
Proof. intro H. rewrite <- (firstn_skipn n l) in H. apply nodup_app_iff in H. apply H. Qed.

Lemma map_nth_seq (l : list nat) n : n <= length l ->
  map (fun i => nth i l 0) (seq 0 n) = firstn n l.
Proof.
  revert n. induction l as [|x r IH]; intros n H; simpl in H.
  - replace n with 0 by lia. reflexivity.
  - destruct n as [|n]; [reflexivity|]. simpl. f_equal.
    rewrite <- seq_shift, map_map. apply IH. lia.
Qed.

Lemma random_alloc_spec draw nn avail al : sorted avail ->
  random_alloc draw nn avail = Some al ->
  sorted al /\ incl al avail /\ length al = nn.
Proof.
  intros S H. unfold random_alloc in H. destruct (length avail <? nn) eqn:L; [discriminate|].
  apply Nat.ltb_ge in L. injection H as <-.
  pose proof (shuffle_perm draw avail) as P.
  pose proof (Permutation_length P) as PL.
  rewrite map_nth_seq by lia.
  assert (ND: NoDup (firstn nn (shuffle draw avail))).
  { apply firstn_nodup. apply (Permutation_NoDup (Permutation_sym P)). apply sorted_nodup, S. }
  split; [apply sinsert_all_sorted; constructor|]. split.
  - intros x Hx. apply sinsert_all_in in Hx. destruct Hx as [Hx|[]].
    apply firstn_incl in Hx. apply (Permutation_in x P), Hx.
  - rewrite (Permutation_length (sinsert_all_perm _ [] ltac:(rewrite app_nil_r; exact ND))).
    rewrite app_nil_r, firstn_length. lia.
Qed.

Lemma stride_loop_spec stride nn : forall rest idx alloc,
  sorted alloc -> sorted (stride_loop stride nn idx rest alloc) /\
  incl (stride_loop stride nn idx rest alloc) (alloc ++ rest).
Proof.
  induction rest as [|x r IH]; intros idx alloc S; simpl.
  - split; [exact S|]. rewrite app_nil_r. apply incl_refl.
  - destruct (length alloc <? nn).
    + destruct (IH (Datatypes.S idx) (if idx mod stride =? 0 then sinsert x alloc else alloc)) as [A B].
      { destruct (idx mod stride =? 0); [apply sinsert_sorted|]; exact S. }
      split; [exact A|]. intros y Hy. apply B in Hy. apply in_app_or in Hy.
      apply in_or_app. destruct (idx mod stride =? 0); destruct Hy as [Hy|Hy].
      * apply sinsert_in in Hy. destruct Hy as [->|Hy]; [right; left; auto|left; auto].
      * right; right; auto.
      * auto.
      * right; right; auto.
    + split; [exact S|]. intros y Hy. apply in_or_app. auto.
Qed.

Lemma stride_alloc_spec stride nn avail al : stride_alloc stride nn avail = Some al ->
  sorted al /\ incl al avail /\ length al = nn.
Proof.
  unfold stride_alloc. destruct stride as [|st]; [discriminate|]. intro H.
  destruct (length (stride_loop (S st) nn 0 avail []) =? nn) eqn:E; [|discriminate].
  apply Nat.eqb_eq in E. injection H as <-.
  destruct (stride_loop_spec (S st) nn avail 0 []) as [A B]; [constructor|].
  auto.
Qed.

Lemma greedy_router_spec avail : forall cnt lo left acc l1 a1,
  sorted acc -> (forall x, In x acc -> x < lo) ->
  greedy_router avail (seq lo cnt) left acc = (l1, a1) ->
  sorted a1 /\ (forall x, In x a1 -> In x acc \/ (In x avail /\ lo <= x < lo + cnt)) /\
  (Z.of_nat (length a1) + l1 = Z.of_nat (length acc) + left)%Z.
Proof.
  induction cnt as [|c IH]; intros lo left acc l1 a1 S B H; cbn [seq greedy_router] in H.
  - injection H as <- <-. auto.
  - destruct (smem lo avail) eqn:M.
    + apply smem_in in M. cbv zeta in H.
      assert (N: ~ In lo acc) by (intro K; specialize (B lo K); lia).
      assert (PL: length (sinsert lo acc) = Datatypes.S (length acc))
        by (rewrite (Permutation_length (sinsert_perm lo acc N)); reflexivity).
      destruct (left - 1 =? 0)%Z eqn:Z0.
      * injection H as <- <-. split; [apply sinsert_sorted, S|]. split.
        -- intros x Hx. apply sinsert_in in Hx. destruct Hx as [->|Hx]; [right; split; [auto|lia]|auto].
        -- rewrite PL. lia.
      * apply IH in H; [|apply sinsert_sorted, S|].
        -- destruct H as (A & C & D). split; [exact A|]. split.
           ++ intros x Hx. destruct (C x Hx) as [K|[K1 K2]].
              ** apply sinsert_in in K. destruct K as [->|K]; [right; split; [auto|lia]|auto].
              ** right. split; [auto|lia].
           ++ rewrite PL in D. lia.
        -- intros x Hx. apply sinsert_in in Hx. destruct Hx as [->|Hx]; [lia|specialize (B x Hx); lia].
    + apply IH in H; [|exact S|intros x Hx; specialize (B x Hx); lia].
      destruct H as (A & C & D). split; [exact A|]. split; [|exact D].
      intros x Hx. destruct (C x Hx) as [K|[K1 K2]]; [auto|right; split; [auto|lia]].
Qed.

Lemma greedy_group_spec conc avail : forall cnt s0 left acc l1 a1,
  sorted acc -> (forall x, In x acc -> x < s0 * conc) ->
  greedy_group conc avail (seq s0 cnt) left acc = (l1, a1) ->
  sorted a1 /\
  (forall x, In x a1 -> In x acc \/ (In x avail /\ s0 * conc <= x < (s0 + cnt) * conc)) /\
  (Z.of_nat (length a1) + l1 = Z.of_nat (length acc) + left)%Z.
Proof.
  induction cnt as [|c IH]; intros s0 left acc l1 a1 S B H; cbn [seq greedy_group] in H.
  - injection H as <- <-. auto.
  - destruct (greedy_router avail (seq (s0 * conc) conc) left acc) as [l2 a2] eqn:E.
    apply greedy_router_spec in E; [|exact S|exact B]. destruct E as (S2 & B2 & L2).
    destruct (l2 =? 0)%Z eqn:Z0.
    + injection H as <- <-. split; [exact S2|]. split; [|exact L2].
      intros x Hx. destruct (B2 x Hx) as [K|[K1 K2]]; [auto|right; split; [auto|nia]].
    + apply IH in H; [|exact S2|].
      * destruct H as (A & C & D). split; [exact A|]. split; [|lia].
        intros x Hx. destruct (C x Hx) as [K|[K1 K2]].
        -- destruct (B2 x K) as [J|[J1 J2]]; [auto|right; split; [auto|nia]].
        -- right. split; [auto|nia].
      * intros x Hx. destruct (B2 x Hx) as [K|[K1 K2]]; [specialize (B x K); nia|nia].
Qed.

Lemma greedy_groups_spec na conc per avail : forall cnt g0 rem alloc r1 a1,
  sorted alloc -> (forall x, In x alloc -> In x avail /\ x < g0 * na * conc) ->
  greedy_groups na conc per avail (seq g0 cnt) rem alloc = (r1, a1) ->
  sorted a1 /\ incl a1 avail /\ length a1 + r1 = length alloc + rem.
Proof.
  induction cnt as [|c IH]; intros g0 rem alloc r1 a1 S B H; cbn [seq greedy_groups] in H.
  - injection H as <- <-. split; [exact S|]. split; [|lia]. intros x Hx. apply B, Hx.
  - cbv zeta in H.
    destruct (greedy_group conc avail (seq (g0 * na) na) (Z.of_nat (min rem per)) []) as [l2 a2] eqn:E.
    apply greedy_group_spec in E; [|constructor|intros x []]. destruct E as (S2 & B2 & L2).
    destruct (l2 =? 0)%Z eqn:Z0.
    + apply Z.eqb_eq in Z0. cbn [length] in L2.
      assert (ND: NoDup (a2 ++ alloc)).
      { apply nodup_app; try (apply sorted_nodup; assumption).
        intros x Hx Hy. destruct (B2 x Hx) as [[]|[_ K]]. apply B in Hy. lia. }
      pose proof (Permutation_length (sinsert_all_perm a2 alloc ND)) as PL.
      rewrite app_length in PL.
      apply IH in H; [|apply sinsert_all_sorted, S|].
      * destruct H as (A & C & D). repeat split; auto. lia.
      * intros x Hx. apply sinsert_all_in in Hx. destruct Hx as [Hx|Hx].
        -- destruct (B2 x Hx) as [[]|[K1 K2]]. split; [auto|nia].
        -- destruct (B x Hx). split; [auto|nia].
    + apply IH in H; auto. intros x Hx. destruct (B x Hx). split; [auto|nia].
Qed.

Lemma greedy_dfly_spec na ng conc k nn avail al :
  greedy_dfly na ng conc k nn avail = Some al -> sorted al /\ incl al avail /\ length al = nn.
Proof.
  unfold greedy_dfly. destruct k as [|k]; [discriminate|]. cbv zeta.
  destruct (greedy_groups _ _ _ _ _ _ _) as [r a] eqn:E. intro H.
  apply greedy_groups_spec in E; [|constructor|intros x []]. destruct E as (A & B & C).
  destruct (0 <? r) eqn:R; [discriminate|]. apply Nat.ltb_ge in R. injection H as <-.
  cbn [length] in C. repeat split; auto. lia.
Qed.

(** Allocators that choose among the available nodes. *)
Definition choosing (a : allocator) : Prop :=
  match a with AFirst | ARandom _ | AStride _ | AGreedy _ _ _ _ => True | _ => False end.

Lemma allocate_sorted a nn avail al : sorted avail -> allocate a nn avail = Some al -> sorted al.
Proof.
  intros S H. destruct a; simpl in H.
  - rewrite first_available_spec in H by exact S. destruct (_ <? _); [discriminate|].
    injection H as <-. apply firstn_sorted, S.
  - apply random_alloc_spec in H; tauto.
  - apply stride_alloc_spec in H; tauto.
  - apply greedy_dfly_spec in H; tauto.
  - injection H as <-. apply sinsert_all_sorted. constructor.
  - unfold node_id_alloc in H. destruct (forallb _ _); [|discriminate].
    destruct (_ <? _); [discriminate|]. injection H as <-. apply sinsert_all_sorted. constructor.
  - injection H as <-. apply sinsert_all_sorted. constructor.
Qed.

Lemma allocate_choosing a nn avail al : sorted avail -> choosing a ->
  allocate a nn avail = Some al -> sorted al /\ incl al avail /\ length al = nn.
Proof.
  intros S C H. destruct a; simpl in *; try tauto.
  - rewrite first_available_spec in H by exact S. destruct (length avail <? nn) eqn:L; [discriminate|].
    apply Nat.ltb_ge in L. injection H as <-. split; [apply firstn_sorted, S|].
    split; [apply firstn_incl|]. rewrite firstn_length. lia.
  - apply (random_alloc_spec draw); auto.
  - apply stride_alloc_spec in H; auto.
  - apply greedy_dfly_spec in H; auto.
Qed.

(** ** Mappers *)

Definition cnt (m : list nat) (n : nat) : nat := count_occ Nat.eq_dec m n.

Lemma cnt_repeat a k n : cnt (repeat a k) n = if Nat.eq_dec a n then k else 0.
Proof.
  unfold cnt. induction k; simpl; destruct (Nat.eq_dec a n); auto.
Qed.

Lemma cnt_app a b n : cnt (a ++ b) n = cnt a n + cnt b n.
Proof. apply count_occ_app. Qed.

Lemma block_loop_len ppn nproc : forall nodes res, length res <= nproc ->
  length (block_loop ppn nproc nodes res) = min nproc (length res + length nodes * ppn).
Proof.
  induction nodes as [|a r IH]; intros res L; cbn [block_loop length]; [lia|].
  cbv zeta. destruct (nproc <? length res + ppn) eqn:E.
  - apply Nat.ltb_lt in E. rewrite IH; rewrite app_length, repeat_length; nia.
  - apply Nat.ltb_ge in E. rewrite IH; rewrite app_length, repeat_length; nia.
Qed.

Lemma block_loop_in ppn nproc : forall nodes res x,
  In x (block_loop ppn nproc nodes res) -> In x res \/ In x nodes.
Proof.
  induction nodes as [|a r IH]; intros res x H; cbn [block_loop] in H; [auto|].
  apply IH in H. destruct H as [H|H]; [|right; right; auto].
  apply in_app_or in H. destruct H as [H|H]; [auto|].
  apply repeat_spec in H. subst. right; left; auto.
Qed.

Lemma block_loop_cnt ppn nproc : forall nodes res x, NoDup nodes ->
  (forall y, In y nodes -> ~ In y res) -> (forall y, cnt res y <= ppn) ->
  cnt (block_loop ppn nproc nodes res) x <= ppn.
Proof.
  induction nodes as [|a r IH]; intros res x ND D C; cbn [block_loop]; [apply C|].
  inversion ND as [|? ? N ND']; subst. apply IH; [exact ND'| |].
  - intros y Hy K. apply in_app_or in K. destruct K as [K|K].
    + apply (D y); simpl; auto.
    + apply repeat_spec in K. subst. contradiction.
  - intro y. rewrite cnt_app, cnt_repeat. destruct (Nat.eq_dec a y) as [E|E].
    + subst. assert (Z: cnt res y = 0).
      { apply count_occ_not_In. apply D. simpl. auto. }
      rewrite Z. destruct (nproc <? length res + ppn) eqn:L; [apply Nat.ltb_lt in L; lia|lia].
    + specialize (C y). lia.
Qed.

Lemma block_loop_keep ppn nproc : forall nodes res x,
  In x res -> In x (block_loop ppn nproc nodes res).
Proof.
  induction nodes as [|a r IH]; intros res x H; cbn [block_loop]; [auto|].
  apply IH. apply in_or_app. auto.
Qed.

Lemma block_loop_all ppn nproc : 0 < ppn -> forall nodes res x,
  length res + (length nodes - 1) * ppn < nproc ->
  In x nodes -> In x (block_loop ppn nproc nodes res).
Proof.
  intros P. induction nodes as [|a r IH]; intros res x L H; [destruct H|].
  cbn [block_loop]. cbn [length] in L.
  set (this := if nproc <? length res + ppn then nproc - length res else ppn).
  destruct H as [->|H].
  - apply block_loop_keep. apply in_or_app. right.
    assert (T: 0 < this).
    { unfold this. destruct (nproc <? length res + ppn); lia. }
    destruct this; [lia|]. simpl. auto.
  - apply IH; [|exact H]. rewrite app_length, repeat_length.
    destruct r as [|b r]; [destruct H|]. cbn [length] in *.
    unfold this. destruct (nproc <? length res + ppn) eqn:E.
    + apply Nat.ltb_lt in E. nia.
    + nia.
Qed.

(** Rank [r] sits on node number [r / ppn]. *)
Lemma block_loop_nth ppn nproc : 0 < ppn -> forall nodes res r,
  length res <= nproc -> length res <= r < nproc -> r < length res + length nodes * ppn ->
  nth r (block_loop ppn nproc nodes res) 0 = nth ((r - length res) / ppn) nodes 0.
Proof.
  intros P. induction nodes as [|a rest IH]; intros res r L R B; cbn [length] in B; [lia|].
  cbn [block_loop].
  set (this := if nproc <? length res + ppn then nproc - length res else ppn).
  assert (T: this <= ppn /\ length res + this <= nproc /\ (this = ppn \/ length res + this = nproc)).
  { unfold this. destruct (nproc <? length res + ppn) eqn:E;
      [apply Nat.ltb_lt in E|apply Nat.ltb_ge in E]; lia. }
  clearbody this. destruct T as (T1 & T2 & T3).
  assert (keep: forall nodes res r, r < length res ->
    nth r (block_loop ppn nproc nodes res) 0 = nth r res 0).
  { clear. induction nodes as [|a rest IH]; intros res r H; cbn [block_loop]; [reflexivity|].
    rewrite IH by (rewrite app_length; lia). apply app_nth1, H. }
  destruct (Nat.lt_ge_cases r (length res + this)) as [C|C].
  - rewrite keep by (rewrite app_length, repeat_length; lia).
    rewrite app_nth2 by lia. rewrite Nat.div_small by lia. cbn [nth].
    apply (repeat_spec this a). apply nth_In. rewrite repeat_length. lia.
  - destruct T3 as [T3|T3]; [subst this|lia].
    rewrite IH; rewrite ?app_length, ?repeat_length; try lia.
    replace (r - length res) with (1 * ppn + (r - (length res + ppn))) by lia.
    rewrite Nat.div_add_l by lia. reflexivity.
Qed.

Lemma fill_spec v : forall c result from, from + c <= length result ->
  fill result from c v = firstn from result ++ repeat v c ++ skipn (from + c) result.
Proof.
  induction c as [|c IH]; intros result from L; cbn [fill repeat].
  - rewrite Nat.add_0_r. simpl. symmetry. apply firstn_skipn.
  - rewrite IH by (rewrite vset_length; lia).
    assert (A: forall i (l : list nat), i < length l ->
       vset l i v = firstn i l ++ v :: skipn (S i) l).
    { clear. induction i; destruct l; simpl; intros; try lia; auto. f_equal. apply IHi. lia. }
    rewrite A by lia.
    assert (F1: firstn (S from) (firstn from result ++ v :: skipn (S from) result) = firstn from result ++ [v]).
    { rewrite firstn_app, firstn_length, firstn_firstn.
      replace (min (S from) from) with from by lia.
      replace (S from - min from (length result)) with 1 by lia. reflexivity. }
    assert (F2: skipn (S from + c) (firstn from result ++ v :: skipn (S from) result) = skipn (from + S c) result).
    { rewrite skipn_app, firstn_length. rewrite (skipn_all2 (firstn from result)) by (rewrite firstn_length; lia).
      replace (S from + c - min from (length result)) with (S c) by lia. cbn [app].
      change (skipn (S c) (v :: skipn (S from) result)) with (skipn c (skipn (S from) result)).
      rewrite skipn_skipn. f_equal. lia. }
    rewrite F1, F2, <- app_assoc. reflexivity.
Qed.

Lemma random_loop_block ppn nproc : forall nodes idx res,
  length res = min (idx * ppn) nproc ->
  random_loop ppn nproc idx nodes (res ++ repeat 0 (nproc - length res)) =
  block_loop ppn nproc nodes res ++ repeat 0 (nproc - length (block_loop ppn nproc nodes res)).
Proof.
  induction nodes as [|a r IH]; intros idx res L; cbn [random_loop block_loop]; [reflexivity|].
  cbv zeta. set (this := if nproc <? length res + ppn then nproc - length res else ppn).
  assert (T: length res + this <= nproc /\ length (res ++ repeat a this) = min (S idx * ppn) nproc).
  { rewrite app_length, repeat_length. unfold this. destruct (nproc <? length res + ppn) eqn:E;
      [apply Nat.ltb_lt in E|apply Nat.ltb_ge in E]; nia. }
  destruct T as [T1 T2].
  assert (F: fill (res ++ repeat 0 (nproc - length res)) (idx * ppn)
               (min (idx * ppn + ppn) nproc - idx * ppn) a =
             (res ++ repeat a this) ++ repeat 0 (nproc - length (res ++ repeat a this))).
  { rewrite app_length, repeat_length in *.
    destruct (Nat.lt_ge_cases (idx * ppn) nproc) as [C|C].
    - assert (L1: length res = idx * ppn) by lia.
      assert (L2: min (idx * ppn + ppn) nproc - idx * ppn = this) by lia.
      rewrite L2. rewrite fill_spec by (rewrite app_length, repeat_length; lia).
      rewrite firstn_app. replace (idx * ppn - length res) with 0 by lia.
      rewrite firstn_O, app_nil_r, firstn_all2 by lia. rewrite <- app_assoc. do 2 f_equal.
      rewrite skipn_app, skipn_all2 by lia. cbn [app].
      replace (idx * ppn + this - length res) with this by lia.
      replace (nproc - length res) with (this + (nproc - (length res + this))) by lia.
      rewrite repeat_app, skipn_app, repeat_length, skipn_all2 by (rewrite repeat_length; lia).
      replace (this - this) with 0 by lia. reflexivity.
    - assert (this = 0) by lia.
      replace (min (idx * ppn + ppn) nproc - idx * ppn) with 0 by lia.
      rewrite H. cbn [fill repeat]. rewrite !app_nil_r. f_equal. f_equal. lia. }
  rewrite F. apply IH. exact T2.
Qed.

Lemma random_loop_full ppn nproc nodes : nproc <= ppn * length nodes ->
  random_loop ppn nproc 0 nodes (repeat 0 nproc) = block_loop ppn nproc nodes [].
Proof.
  intro H. pose proof (random_loop_block ppn nproc nodes 0 [] eq_refl) as E.
  cbn [length app] in E. rewrite Nat.sub_0_r in E. rewrite E.
  rewrite block_loop_len by (simpl; lia). cbn [length].
  replace (nproc - min nproc (0 + length nodes * ppn)) with 0 by nia.
  apply app_nil_r.
Qed.

Lemma concat_repeat_nth (l : list nat) k : forall r, r < length l * k ->
  nth r (concat (repeat l k)) 0 = nth (r mod length l) l 0.
Proof.
  induction k as [|k IH]; intros r H; [lia|]. cbn [repeat concat].
  destruct (Nat.lt_ge_cases r (length l)) as [C|C].
  - rewrite app_nth1 by exact C. rewrite Nat.mod_small by exact C. reflexivity.
  - rewrite app_nth2 by exact C. rewrite IH by nia.
    replace r with (r - length l + 1 * length l) at 2 by lia.
    rewrite Nat.mod_add by lia. reflexivity.
Qed.

Lemma concat_repeat_len {A} (l : list A) k : length (concat (repeat l k)) = k * length l.
Proof. induction k; simpl; [reflexivity|]. rewrite app_length. lia. Qed.

Lemma concat_repeat_cnt l k n : cnt (concat (repeat l k)) n = k * cnt l n.
Proof. induction k; simpl; [reflexivity|]. rewrite cnt_app. lia. Qed.

Lemma concat_repeat_in {A} (l : list A) k x : In x (concat (repeat l k)) -> In x l.
Proof.
  induction k; simpl; [tauto|]. intro H. apply in_app_or in H. tauto.
Qed.

Lemma validate_spec ppn n nproc np : validate_nproc ppn n nproc = Some np ->
  np = nproc /\ 0 < n /\ 0 < ppn /\ nproc <= ppn * n.
Proof.
  unfold validate_nproc. destruct (n =? 0) eqn:A; [discriminate|].
  destruct (ppn =? 0) eqn:B; [discriminate|]. destruct (ppn * n <? nproc) eqn:C; [discriminate|].
  apply Nat.eqb_neq in A, B. apply Nat.ltb_ge in C. intro H. injection H as <-. lia.
Qed.

(** The node_to_rank table. *)
Lemma node_to_rank_len m : forall r t, length (node_to_rank r m t) = length t.
Proof. induction m; intros; simpl; [reflexivity|]. rewrite IHm, vset_length. reflexivity. Qed.

Lemma node_to_rank_nth m : forall r t n, n < length t ->
  nth n (node_to_rank r m t) [] =
  nth n t [] ++ map (fun i => r + i) (filter (fun i => nth i m 0 =? n) (seq 0 (length m))).
Proof.
  induction m as [|a m IH]; intros r t n H; cbn [node_to_rank].
  - simpl. rewrite app_nil_r. reflexivity.
  - rewrite IH by (rewrite vset_length; exact H). rewrite vset_nth.
    cbn [length seq filter]. rewrite <- seq_shift.
    assert (F: filter (fun i => nth i (a :: m) 0 =? n) (map S (seq 0 (length m))) =
               map S (filter (fun i => nth i m 0 =? n) (seq 0 (length m)))).
    { generalize (seq 0 (length m)). induction l as [|x l IHl]; cbn [map filter]; [reflexivity|].
      change (nth (S x) (a :: m) 0) with (nth x m 0).
      destruct (nth x m 0 =? n); cbn [map]; rewrite IHl; reflexivity. }
    rewrite F. cbn [nth]. destruct (a =? n) eqn:E.
    + apply Nat.eqb_eq in E. subst a. apply Nat.ltb_lt in H. rewrite H. cbn [andb map].
      rewrite <- app_assoc. cbn [app]. rewrite map_map, Nat.add_0_r. f_equal. f_equal.
      apply map_ext. intro. lia.
    + cbn [andb]. rewrite map_map. f_equal. apply map_ext. intro. lia.
Qed.
