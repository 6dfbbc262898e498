(** C31, C84: dense numbering of the live ranks. *)
From Coq Require Import List Arith ZArith Bool Lia Sorted Permutation.
From Verif Require Import DmModel.
Import ListNotations.
Local Open Scope Z_scope.

Definition ascending (l : list Z) : Prop := StronglySorted Z.lt l.

(** The number of failed ranks below [r]. *)
Definition below (l : list Z) (r : Z) : Z := Z.of_nat (length (filter (fun x => x <? r) l)).

Lemma below_cons : forall x l r, below (x :: l) r = (if x <? r then 1 else 0) + below l r.
Proof.
  intros x l r. unfold below. cbn [filter]. destruct (x <? r); cbn [length]; lia.
Qed.

Lemma below_app : forall l k r, below (l ++ k) r = below l r + below k r.
Proof. intros l k r. unfold below. rewrite filter_app, app_length. lia. Qed.

Lemma below_nonneg : forall l r, 0 <= below l r.
Proof. intros. unfold below. lia. Qed.

Lemma below_none : forall l r, (forall x, In x l -> r <= x) -> below l r = 0.
Proof.
  induction l as [|x t IH]; intros r H; [reflexivity|]. rewrite below_cons, IH.
  - destruct (Z.ltb_spec x r); [|reflexivity]. specialize (H x (or_introl eq_refl)). lia.
  - intros y Hy. apply H. now right.
Qed.

Lemma below_all : forall l r, (forall x, In x l -> x < r) -> below l r = Z.of_nat (length l).
Proof.
  induction l as [|x t IH]; intros r H; [reflexivity|]. rewrite below_cons, IH.
  - destruct (Z.ltb_spec x r); cbn [length]; [lia|]. specialize (H x (or_introl eq_refl)). lia.
  - intros y Hy. apply H. now right.
Qed.

Lemma asc_cons : forall x t, ascending (x :: t) -> ascending t /\ forall y, In y t -> x < y.
Proof.
  intros x t H. apply StronglySorted_inv in H. destruct H as (A & B). split; auto.
  now apply Forall_forall.
Qed.

(** Ascending ranks in an interval are at most as many as the interval's numbers. *)
Lemma asc_count : forall l a b, ascending l -> (forall x, In x l -> a <= x < b) -> a <= b ->
  Z.of_nat (length l) <= b - a.
Proof.
  induction l as [|x t IH]; intros a b H B L; [cbn; lia|].
  apply asc_cons in H. destruct H as (H & X). pose proof (B x (or_introl eq_refl)).
  specialize (IH (x + 1) b H). cbn [length]. rewrite Nat2Z.inj_succ.
  assert (Z.of_nat (length t) <= b - (x + 1)); [|lia].
  apply IH; [|lia]. intros y Hy. specialize (X y Hy). specialize (B y (or_intror Hy)). lia.
Qed.

Lemma asc_filter : forall f l, ascending l -> ascending (filter f l).
Proof.
  induction l as [|x t IH]; intros H; [exact H|]. apply asc_cons in H. destruct H as (H & X).
  cbn [filter]. destruct (f x); [|auto]. constructor; [now apply IH|].
  apply Forall_forall. intros y Hy. apply filter_In in Hy. now apply X.
Qed.

(** ** init *)

Lemma zins_perm : forall x l, Permutation (zins x l) (x :: l).
Proof.
  induction l as [|y t IH]; cbn [zins]; [reflexivity|]. destruct (x <=? y); [reflexivity|].
  rewrite IH. apply perm_swap.
Qed.

Lemma zsort_perm : forall l, Permutation (zsort l) l.
Proof.
  induction l as [|x t IH]; [reflexivity|]. cbn [zsort fold_right]. fold (zsort t).
  now rewrite zins_perm, IH.
Qed.

Lemma zins_asc : forall x l, ascending l -> ~ In x l -> ascending (zins x l).
Proof.
  induction l as [|y t IH]; intros H N; cbn [zins].
  - constructor; constructor.
  - pose proof (asc_cons y t H) as (A & B). destruct (Z.leb_spec x y).
    + constructor; [exact H|]. apply Forall_forall. intros z [<- | Hz].
      * assert (x <> y) by (intros ->; apply N; now left). lia.
      * specialize (B z Hz). lia.
    + constructor.
      * apply IH; auto. intros K. apply N. now right.
      * apply Forall_forall. intros z Hz. apply (Permutation_in _ (zins_perm x t)) in Hz.
        destruct Hz as [<- | Hz]; [lia|]. now apply B.
Qed.

Lemma zsort_asc : forall l, NoDup l -> ascending (zsort l).
Proof.
  induction l as [|x t IH]; intros H; [constructor|]. inversion H as [|? ? A B]; subst.
  cbn [zsort fold_right]. fold (zsort t). apply zins_asc; [now apply IH|].
  intros K. apply A. now apply (Permutation_in _ (zsort_perm t)).
Qed.

Lemma asc_nodup : forall l, ascending l -> NoDup l.
Proof.
  induction l as [|x t IH]; intros H; constructor; apply asc_cons in H; destruct H as (A & B).
  - intros K. specialize (B x K). lia.
  - now apply IH.
Qed.

(** The array holds the failed ranks in the communicator's numbering, ascending. *)
Theorem init_ascending : forall failed dom, ascending failed ->
  (forall f, dom = Some f -> forall x y, In x failed -> In y failed -> f x = f y -> x = y) ->
  ascending (dm_init failed dom)
  /\ forall r, In r (dm_init failed dom) <->
       exists g, In g failed /\ r = match dom with Some f => f g | None => g end.
Proof.
  intros failed [f|] A J; cbn [dm_init].
  - specialize (J f eq_refl). split.
    + apply zsort_asc. apply asc_nodup in A. clear - A J. induction A as [|x t N A IH]; cbn [map]; constructor.
      * intros K. apply in_map_iff in K. destruct K as (y & E & K). apply N.
        rewrite <- (J y x); auto; [now right|now left].
      * apply IH. intros a b Ha Hb. apply J; now right.
    + intros r. split.
      * intros K. apply (Permutation_in _ (zsort_perm _)) in K. apply in_map_iff in K.
        destruct K as (g & E & K). eauto.
      * intros (g & K & ->). apply (Permutation_in _ (Permutation_sym (zsort_perm _))).
        now apply in_map.
  - split; auto. intros r. split; [eauto|]. intros (g & K & ->). exact K.
Qed.
Print Assumptions init_ascending.

(** ** Looking up *)

Lemma linear_from_spec : forall l i r, ascending l -> ~ In r l ->
  linear_from i l r = r - (i + below l r).
Proof.
  induction l as [|x t IH]; intros i r H N; cbn [linear_from].
  - unfold below. cbn. lia.
  - apply asc_cons in H. destruct H as (H & X). rewrite below_cons.
    destruct (Z.ltb_spec r x).
    + destruct (Z.ltb_spec x r); [lia|]. rewrite below_none; [lia|].
      intros y Hy. specialize (X y Hy). lia.
    + assert (x <> r) by (intros ->; apply N; now left).
      destruct (Z.ltb_spec x r); [|lia]. rewrite IH; auto; [lia|]. intros K. apply N. now right.
Qed.

Definition slice (base num : nat) (arr : list Z) : list Z := firstn num (skipn base arr).

Lemma slice_split : forall base num mid arr, (mid <= num)%nat ->
  slice base num arr = slice base mid arr ++ slice (base + mid) (num - mid) arr.
Proof.
  intros base num mid arr H. unfold slice.
  assert (forall (l : list Z) a b, (a <= b)%nat -> firstn b l = firstn a l ++ firstn (b - a) (skipn a l)) as F.
  { clear. induction l as [|x t IH]; intros [|a] [|b] H; cbn; auto; try lia.
    - now rewrite !firstn_nil.
    - f_equal. apply IH. lia. }
  rewrite (F _ mid num H). f_equal. f_equal. clear. revert arr.
  induction base as [|b IH]; intros arr; [reflexivity|]. destruct arr as [|x t]; [now rewrite !skipn_nil|].
  cbn [skipn Nat.add]. apply IH.
Qed.

Lemma slice_hd : forall base num arr, (0 < num)%nat -> (base < length arr)%nat ->
  exists t, slice base num arr = nth base arr 0 :: t.
Proof.
  intros base num arr. revert base. induction arr as [|x t IH]; intros [|b] Hn Hl; cbn [length] in Hl; try lia.
  - unfold slice. cbn [skipn nth]. destruct num; [lia|]. cbn [firstn]. eauto.
  - cbn [nth]. unfold slice. cbn [skipn]. apply (IH b); lia.
Qed.

Lemma asc_app : forall l k, ascending (l ++ k) ->
  ascending l /\ ascending k /\ forall x y, In x l -> In y k -> x < y.
Proof.
  induction l as [|x t IH]; intros k H.
  - split; [constructor|]. split; [exact H|]. intros ? ? [].
  - cbn [app] in H. apply asc_cons in H. destruct H as (H & X).
    destruct (IH k H) as (A & B & C). split; [|split; auto].
    + constructor; auto. apply Forall_forall. intros y Hy. apply X, in_or_app. now left.
    + intros a b [<- | Ha] Hb; [apply X, in_or_app; now right|]. now apply C.
Qed.

Lemma tree_find_spec : forall fuel arr r offset num base,
  (num <= fuel)%nat -> (0 < num)%nat -> (base + num <= length arr)%nat ->
  ascending (slice base num arr) ->
  tree_find fuel arr r offset num base =
    if in_dec Z.eq_dec r (slice base num arr) then None
    else Some (r - (offset + below (slice base num arr) r)).
Proof.
  induction fuel as [|f IH]; intros arr r offset num base Hf Hn Hl A; [lia|].
  cbn [tree_find]. cbv zeta. destruct (Nat.eqb_spec num 1) as [->|N1].
  - destruct (slice_hd base 1 arr) as (t & E); [lia|lia|].
    assert (t = []).
    { assert (length (slice base 1 arr) <= 1)%nat by (unfold slice; rewrite firstn_length; lia).
      rewrite E in H. cbn [length] in H. destruct t; [reflexivity|cbn [length] in H; lia]. }
    subst t. rewrite E, Nat.add_0_r. set (x := nth base arr 0) in *.
    destruct (in_dec Z.eq_dec r [x]) as [[->|[]]|K].
    + destruct (Z.ltb_spec r r); [lia|reflexivity].
    + assert (x <> r) by (intros ->; apply K; now left).
      rewrite below_cons. unfold below. cbn [filter length].
      destruct (Z.ltb_spec x r); [f_equal; lia|]. destruct (Z.ltb_spec r x); [f_equal; lia|lia].
  - set (mid := Nat.div num 2).
    assert (Hm : (0 < mid < num)%nat).
    { unfold mid. split; [apply Nat.div_str_pos; lia|apply Nat.div_lt; lia]. }
    pose proof (slice_split base num mid arr ltac:(lia)) as SP.
    rewrite SP in A. destruct (asc_app _ _ A) as (A1 & A2 & A3).
    destruct (slice_hd (base + mid) (num - mid) arr) as (t & E); [lia|lia|].
    set (x := nth (base + mid)%nat arr 0) in *.
    assert (HX : forall y, In y (slice base mid arr) -> y < x) by (intros y Hy; apply A3; auto; rewrite E; now left).
    assert (HY : forall y, In y (slice (base + mid) (num - mid) arr) -> x <= y).
    { intros y. rewrite E. rewrite E in A2. apply asc_cons in A2. intros [<- | Hy]; [lia|].
      apply A2 in Hy. lia. }
    rewrite SP, below_app.
    destruct (Z.ltb_spec r x) as [L|L]; [|destruct (Z.ltb_spec x r) as [L2|L2]].
    + rewrite IH by (auto; lia). rewrite (below_none (slice (base + mid) _ _)) by (intros y Hy; specialize (HY y Hy); lia).
      rewrite Z.add_0_r. destruct (in_dec Z.eq_dec r (slice base mid arr)) as [I|I];
        destruct (in_dec Z.eq_dec r (slice base mid arr ++ _)) as [J|J]; auto; exfalso.
      * apply J, in_or_app. now left.
      * apply in_app_or in J. destruct J as [J|J]; [auto|]. specialize (HY r J). lia.
    + rewrite IH by (auto; lia). rewrite (below_all (slice base mid arr)) by (intros y Hy; specialize (HX y Hy); lia).
      assert (LM : length (slice base mid arr) = mid).
      { unfold slice. rewrite firstn_length, skipn_length. lia. }
      rewrite LM.
      destruct (in_dec Z.eq_dec r (slice (base + mid) (num - mid) arr)) as [I|I];
        destruct (in_dec Z.eq_dec r (slice base mid arr ++ _)) as [J|J]; auto; try (f_equal; lia); exfalso.
      * apply J, in_or_app. now right.
      * apply in_app_or in J. destruct J as [J|J]; [|auto]. specialize (HX r J). lia.
    + destruct (in_dec Z.eq_dec r _) as [J|J]; auto. exfalso. apply J, in_or_app. right.
      rewrite E. left. lia.
Qed.

Lemma slice_whole : forall arr, slice 0 (length arr) arr = arr.
Proof. intros. unfold slice. cbn [skipn]. apply firstn_all. Qed.

(** The dense rank of a live rank is the rank less the number of failed ranks below
    it, whichever search is used. *)
Theorem dense_is_count : forall failed r, ascending failed -> ~ In r failed ->
  dense_rank failed r = Some (r - below failed r).
Proof.
  intros l r A N. unfold dense_rank. destruct (Nat.eqb_spec (length l) 0) as [E|E].
  - destruct l; [|discriminate]. unfold below. cbn. f_equal. lia.
  - destruct (Nat.leb (length l) tree_cutoff).
    + unfold linear_find. rewrite linear_from_spec by auto. f_equal.
    + rewrite tree_find_spec; rewrite ?slice_whole; auto; try lia.
      destruct (in_dec Z.eq_dec r l); [contradiction|]. f_equal.
Qed.
Print Assumptions dense_is_count.

Lemma sparse_spec : forall l d, ascending l ->
  ~ In (sparse_rank l d) l /\ sparse_rank l d - below l (sparse_rank l d) = d /\ d <= sparse_rank l d.
Proof.
  induction l as [|x t IH]; intros d A; cbn [sparse_rank].
  - split; [intros []|]. unfold below. cbn. lia.
  - apply asc_cons in A. destruct A as (A & X). destruct (Z.leb_spec x d).
    + destruct (IH (d + 1) A) as (P & Q & R). rewrite below_cons.
      destruct (Z.ltb_spec x (sparse_rank t (d + 1))); [|lia].
      split; [|lia]. intros [K|K]; [lia|contradiction].
    + rewrite below_cons. destruct (Z.ltb_spec x d); [lia|].
      rewrite below_none by (intros y Hy; specialize (X y Hy); lia).
      split; [|lia]. intros [K|K]; [lia|]. specialize (X d K). lia.
Qed.

(** Dense ranks grow with the rank. *)
Lemma count_mono : forall l r s, ascending l -> ~ In r l -> r < s ->
  r - below l r < s - below l s.
Proof.
  intros l r s A N L.
  assert (below l s - below l r <= s - (r + 1)); [|lia].
  unfold below.
  assert (E : Z.of_nat (length (filter (fun x => x <? s) l)) =
          Z.of_nat (length (filter (fun x => x <? r) l))
          + Z.of_nat (length (filter (fun x => (r <? x) && (x <? s)) l))).
  { clear A. induction l as [|x t IH]; [reflexivity|]. cbn [filter].
    assert (NI : ~ In r t) by (intros K; apply N; now right). specialize (IH NI).
    assert (x <> r) by (intros ->; apply N; now left).
    destruct (Z.ltb_spec x s); destruct (Z.ltb_spec x r); destruct (Z.ltb_spec r x); cbn [andb length]; lia. }
  rewrite E. ring_simplify.
  pose proof (asc_count (filter (fun x => (r <? x) && (x <? s)) l) (r + 1) s (asc_filter _ _ A)) as C.
  assert (Z.of_nat (length (filter (fun x => (r <? x) && (x <? s)) l)) <= s - (r + 1)); [|lia].
  apply C; [|lia]. intros x Hx. apply filter_In in Hx. destruct Hx as (_ & Hx).
  apply andb_true_iff in Hx. destruct Hx as (U & V). apply Z.ltb_lt in U. apply Z.ltb_lt in V. lia.
Qed.

(** Going to the dense rank and back is the identity, for every set of failed ranks. *)
Theorem sparse_of_dense : forall failed r d, ascending failed -> ~ In r failed ->
  dense_rank failed r = Some d -> sparse_rank failed d = r.
Proof.
  intros l r d A N E. rewrite dense_is_count in E by auto. injection E as <-.
  destruct (sparse_spec l (r - below l r) A) as (P & Q & _).
  destruct (Z.lt_trichotomy (sparse_rank l (r - below l r)) r) as [L|[L|L]]; auto; exfalso.
  - pose proof (count_mono l _ _ A P L). lia.
  - pose proof (count_mono l _ _ A N L). lia.
Qed.
Print Assumptions sparse_of_dense.

(** Every dense rank belongs to a live rank, and is found again. *)
Theorem dense_of_sparse : forall failed d, ascending failed ->
  ~ In (sparse_rank failed d) failed /\ dense_rank failed (sparse_rank failed d) = Some d.
Proof.
  intros l d A. destruct (sparse_spec l d A) as (P & Q & _). split; auto.
  rewrite dense_is_count by auto. now rewrite Q.
Qed.
Print Assumptions dense_of_sparse.

Theorem dense_monotone : forall failed r s d e, ascending failed ->
  ~ In r failed -> ~ In s failed ->
  dense_rank failed r = Some d -> dense_rank failed s = Some e -> (r < s <-> d < e).
Proof.
  intros l r s d e A R S D E. rewrite dense_is_count in D, E by auto.
  injection D as <-. injection E as <-. split.
  - now apply count_mono.
  - intros L. destruct (Z.lt_trichotomy r s) as [K|[K|K]]; auto; exfalso.
    + subst s. lia.
    + pose proof (count_mono l s r A S K). lia.
Qed.
Print Assumptions dense_monotone.

(** In a communicator of [n] ranks the dense ranks of the live ones are exactly the
    numbers below [n] less the number of failures. *)
Theorem dense_onto : forall n failed, ascending failed -> (forall x, In x failed -> 0 <= x < n) ->
  let live := n - Z.of_nat (length failed) in
  (forall r d, 0 <= r < n -> ~ In r failed -> dense_rank failed r = Some d -> 0 <= d < live)
  /\ (forall d, 0 <= d < live -> 0 <= sparse_rank failed d < n).
Proof.
  intros n l A B live. split.
  - intros r d R N E. rewrite dense_is_count in E by auto. injection E as <-.
    assert (L : below l r <= r).
    { unfold below. pose proof (asc_count (filter (fun x => x <? r) l) 0 r (asc_filter _ _ A)) as C.
      rewrite Z.sub_0_r in C. apply C; [|lia]. intros x Hx. apply filter_In in Hx.
      destruct Hx as (Hx & K). apply Z.ltb_lt in K. specialize (B x Hx). lia. }
    split; [lia|]. destruct (Z.eq_dec r n); [lia|].
    pose proof (count_mono l r n A N ltac:(lia)) as C.
    rewrite (below_all l n) in C by (intros x Hx; apply (B x Hx)). exact C.
  - intros d D. destruct (sparse_spec l d A) as (P & Q & R). split; [lia|].
    destruct (Z.lt_ge_cases (sparse_rank l d) n) as [|K]; auto. exfalso.
    rewrite (below_all l) in Q by (intros x Hx; specialize (B x Hx); lia). unfold live in D. lia.
Qed.
Print Assumptions dense_onto.

Example dense_ex :
  dm_init [1; 2; 5; 6; 7; 9] (Some (fun g => 10 - g)) = [1; 3; 4; 5; 8; 9]
  /\ map (dense_rank [1; 3; 4; 5; 8; 9]) [0; 2; 6; 7; 10]
     = [Some 0; Some 1; Some 2; Some 3; Some 4]
  /\ map (sparse_rank [1; 3; 4; 5; 8; 9]) [0; 1; 2; 3; 4] = [0; 2; 6; 7; 10]
  /\ map (dense_rank [1; 3]) [0; 2; 4] = [Some 0; Some 1; Some 2].
Proof. repeat split. Qed.

(** ** C84: failed ranks have no dense rank *)

(** The tree search rejects them. Missing: up to four failures, see the refutation. *)
Theorem failed_rejected_partial : forall failed r, ascending failed -> In r failed ->
  (tree_cutoff < length failed)%nat -> dense_rank failed r = None.
Proof.
  intros l r A I H. unfold tree_cutoff in H. unfold dense_rank, tree_cutoff.
  destruct (Nat.eqb_spec (length l) 0); [lia|]. destruct (Nat.leb_spec (length l) 4); [lia|].
  rewrite tree_find_spec; rewrite ?slice_whole; auto; try lia.
  destruct (in_dec Z.eq_dec r l); [reflexivity|contradiction].
Qed.
Print Assumptions failed_rejected_partial.

Example failed_rejected_ex : dense_rank [1; 3; 4; 5; 8; 9] 5 = None.
Proof. reflexivity. Qed.

(** With one failure the failed rank is given the dense rank of a live one. *)
Theorem failed_rejected_refuted : exists failed r live d,
  ascending failed /\ In r failed /\ ~ In live failed
  /\ dense_rank failed r = Some d /\ dense_rank failed live = Some d.
Proof.
  exists [3], 3, 2, 2. repeat split; try reflexivity.
  - repeat constructor.
  - now left.
  - intros [K|[]]. discriminate K.
Qed.
Print Assumptions failed_rejected_refuted.
