(* Facts about groups, communicator ids, split, cartesian grids and tags. *)
From Coq Require Import List Arith ZArith NArith Bool Lia Permutation Sorted.
From Verif Require Import CmModel.
Import ListNotations.

(* ---- groups ---- *)
Lemma index_of_some : forall t l i, index_of t l = Some i -> nth_error l i = Some t.
Proof.
  induction l as [|x k IH]; intros i H; cbn [index_of] in H; [discriminate|].
  destruct (Nat.eqb_spec x t) as [->|N].
  - injection H as <-. reflexivity.
  - destruct (index_of t k) as [j|]; [|discriminate]. injection H as <-. cbn. auto.
Qed.

Lemma index_of_none : forall t l, index_of t l = None -> ~ In t l.
Proof.
  induction l as [|x k IH]; intros H; cbn [index_of] in H; [intros []|].
  destruct (Nat.eqb_spec x t) as [->|N]; [discriminate|].
  destruct (index_of t k) as [j|]; [discriminate|].
  intros [E|E]; [congruence|]. now apply IH.
Qed.

Lemma index_of_nth : forall t l i, NoDup l -> nth_error l i = Some t -> index_of t l = Some i.
Proof.
  induction l as [|x k IH]; intros i ND H; [destruct i; discriminate|].
  inversion ND as [|? ? N1 N2]; subst. cbn [index_of].
  destruct i as [|i]; cbn in H.
  - injection H as ->. now rewrite Nat.eqb_refl.
  - destruct (Nat.eqb_spec x t) as [->|N].
    + exfalso. apply N1. eapply nth_error_In; eauto.
    + now rewrite (IH _ N2 H).
Qed.

Lemma index_of_in : forall t l, In t l -> exists i, index_of t l = Some i.
Proof.
  intros t l H. destruct (index_of t l) eqn:E; [eauto|]. now apply index_of_none in E.
Qed.

Lemma all_some_spec : forall A (l : list (option A)) k, all_some l = Some k <-> l = map Some k.
Proof.
  induction l as [|[x|] t IH]; intros k; cbn [all_some].
  - split; [intros H; injection H as <-; reflexivity|]. destruct k; [reflexivity|discriminate].
  - split.
    + destruct (all_some t) as [k'|] eqn:E; [|discriminate]. intros H. injection H as <-.
      cbn [map]. f_equal. now apply IH.
    + destruct k as [|y k]; [discriminate|]. cbn [map]. intros H. injection H as -> H.
      apply IH in H. now rewrite H.
  - split; [discriminate|]. destruct k; discriminate.
Qed.

Lemma memb_in : forall p l, memb p l = true <-> In p l.
Proof.
  intros p l. unfold memb. rewrite existsb_exists. split.
  - intros (x & H & E). apply Nat.eqb_eq in E. now subst.
  - intros H. exists p. split; auto. apply Nat.eqb_refl.
Qed.

Lemma range_up_spec : forall fuel rank stop stride l,
  (0 < stride)%Z -> range_up fuel rank stop stride = Some l ->
  forall x, In x l <-> (exists k, 0 <= k /\ x = rank + k * stride /\ x <= stop)%Z.
Proof.
  induction fuel as [|f IH]; intros rank stop stride l Hs H x; cbn [range_up] in H; [discriminate|].
  destruct (Z.leb_spec rank stop) as [L|L].
  - destruct (range_up f (rank + stride) stop stride) as [k|] eqn:E; [|discriminate].
    injection H as <-. cbn [In]. rewrite (IH _ _ _ _ Hs E x). split.
    + intros [<- | (j & A & B & C)].
      * exists 0%Z. lia.
      * exists (j + 1)%Z. lia.
    + intros (j & A & B & C). destruct (Z.eq_dec j 0) as [->|N].
      * left. lia.
      * right. exists (j - 1)%Z. lia.
  - injection H as <-. split; [intros []|]. intros (j & A & B & C).
    assert (0 <= j * stride)%Z by nia. lia.
Qed.

Lemma range_down_spec : forall fuel rank stop stride l,
  (stride < 0)%Z -> range_down fuel rank stop stride = Some l ->
  forall x, In x l <-> (exists k, 0 <= k /\ x = rank + k * stride /\ stop <= x)%Z.
Proof.
  induction fuel as [|f IH]; intros rank stop stride l Hs H x; cbn [range_down] in H; [discriminate|].
  destruct (Z.leb_spec stop rank) as [L|L].
  - destruct (range_down f (rank + stride) stop stride) as [k|] eqn:E; [|discriminate].
    injection H as <-. cbn [In]. rewrite (IH _ _ _ _ Hs E x). split.
    + intros [<- | (j & A & B & C)].
      * exists 0%Z. lia.
      * exists (j + 1)%Z. lia.
    + intros (j & A & B & C). destruct (Z.eq_dec j 0) as [->|N].
      * left. lia.
      * right. exists (j - 1)%Z. lia.
  - injection H as <-. split; [intros []|]. intros (j & A & B & C).
    assert (j * stride <= 0)%Z by nia. lia.
Qed.

Lemma range_up_total : forall fuel rank stop stride,
  (0 < stride)%Z -> (stop - rank < Z.of_nat fuel - 1)%Z ->
  fuel <> 0 -> exists l, range_up fuel rank stop stride = Some l.
Proof.
  induction fuel as [|f IH]; intros rank stop stride Hs L N; [congruence|]. cbn [range_up].
  destruct (Z.leb_spec rank stop) as [G|G]; [|eauto].
  destruct (IH (rank + stride)%Z stop stride) as (l & E); try lia. rewrite E. cbn. eauto.
Qed.

Lemma range_down_total : forall fuel rank stop stride,
  (stride < 0)%Z -> (rank - stop < Z.of_nat fuel - 1)%Z ->
  fuel <> 0 -> exists l, range_down fuel rank stop stride = Some l.
Proof.
  induction fuel as [|f IH]; intros rank stop stride Hs L N; [congruence|]. cbn [range_down].
  destruct (Z.leb_spec stop rank) as [G|G]; [|eauto].
  destruct (IH (rank + stride)%Z stop stride) as (l & E); try lia. rewrite E. cbn. eauto.
Qed.

(* ---- split ---- *)
Definition kflat (m : list (Z * list nat)) : list (Z * nat) :=
  flat_map (fun e => map (pair (fst e)) (snd e)) m.

Lemma kpush_flat : forall k r m, Permutation (kflat (kpush k r m)) ((k, r) :: kflat m).
Proof.
  induction m as [|[k' l] t IH]; cbn [kpush]; [reflexivity|].
  destruct (Z.ltb_spec k k'); [reflexivity|].
  destruct (Z.eqb_spec k k') as [->|N].
  - unfold kflat. cbn [flat_map fst snd]. rewrite map_app. cbn [map].
    rewrite <- app_assoc. cbn [app]. symmetry. apply Permutation_middle.
  - unfold kflat in *. cbn [flat_map fst snd].
    rewrite IH. symmetry. apply Permutation_middle.
Qed.

Definition ksorted (m : list (Z * list nat)) : Prop :=
  StronglySorted (fun a b => fst a < fst b)%Z m.

Lemma kpush_keys : forall k r m k0 l0, In (k0, l0) (kpush k r m) ->
  k0 = k \/ exists l1, In (k0, l1) m.
Proof.
  induction m as [|[k' l] t IH]; intros k0 l0 H; cbn [kpush] in H.
  - destruct H as [H|[]]. injection H as <- _. auto.
  - destruct (Z.ltb_spec k k').
    + destruct H as [H|H]; [injection H as <- _; auto|]. right. eauto.
    + destruct (Z.eqb_spec k k') as [->|N].
      * destruct H as [H|H]; [injection H as <- _; auto|]. right. exists l0. right; auto.
      * destruct H as [H|H]; [injection H as <- _; right; exists l; left; reflexivity|].
        destruct (IH _ _ H) as [->|(l1 & K)]; auto. right. exists l1. right; auto.
Qed.

Lemma kpush_sorted : forall k r m, ksorted m -> ksorted (kpush k r m).
Proof.
  unfold ksorted. induction m as [|[k' l] t IH]; intros H; cbn [kpush].
  - repeat constructor.
  - inversion H as [|? ? S1 S2]; subst.
    destruct (Z.ltb_spec k k').
    + constructor; auto. constructor; cbn [fst]; auto.
      eapply Forall_impl; [|exact S2]. cbn [fst]. intros; lia.
    + destruct (Z.eqb_spec k k') as [->|N].
      * constructor; auto.
      * constructor; auto. rewrite Forall_forall in *. intros [k0 l0] K.
        apply kpush_keys in K. destruct K as [->|(l1 & K)]; cbn [fst] in *; [lia|].
        apply (S2 _ K).
Qed.

Lemma ins_perm : forall x l, Permutation (ins x l) (x :: l).
Proof.
  induction l as [|y t IH]; cbn [ins]; [reflexivity|].
  destruct (x <=? y); [reflexivity|]. rewrite IH. apply perm_swap.
Qed.

Lemma lsort_perm : forall l, Permutation (lsort l) l.
Proof.
  induction l as [|x t IH]; cbn; [reflexivity|]. rewrite ins_perm. now constructor.
Qed.

Lemma ins_sorted : forall x l, StronglySorted le l -> StronglySorted le (ins x l).
Proof.
  induction l as [|y t IH]; intros H; cbn [ins]; [repeat constructor|].
  inversion H as [|? ? S1 S2]; subst.
  destruct (Nat.leb_spec x y).
  - constructor; auto. constructor; auto. eapply Forall_impl; [|exact S2]. intros; lia.
  - constructor; auto. rewrite Forall_forall in *. intros z Hz.
    apply (Permutation_in _ (ins_perm x t)) in Hz. destruct Hz as [<-|Hz]; [lia|]. auto.
Qed.

Lemma lsort_sorted : forall l, StronglySorted le (lsort l).
Proof. induction l as [|x t IH]; cbn; [constructor|]. now apply ins_sorted. Qed.

Fixpoint picks (c : Z) (rank : nat) (data : list (Z * Z)) : list (Z * nat) :=
  match data with
  | [] => []
  | (color, key) :: t =>
    if (0 <=? color)%Z && (color =? c)%Z then (key, rank) :: picks c (S rank) t
    else picks c (S rank) t
  end.

Lemma kscan_flat : forall c data rank m,
  Permutation (kflat (kscan c rank data m)) (picks c rank data ++ kflat m).
Proof.
  induction data as [|[col key] t IH]; intros rank m; cbn [kscan picks]; [reflexivity|].
  rewrite IH. destruct ((0 <=? col)%Z && (col =? c)%Z).
  - rewrite kpush_flat. cbn [app]. symmetry. apply Permutation_middle.
  - reflexivity.
Qed.

Lemma kscan_sorted : forall c data rank m, ksorted m -> ksorted (kscan c rank data m).
Proof.
  induction data as [|[col key] t IH]; intros rank m H; cbn [kscan]; auto.
  apply IH. destruct ((0 <=? col)%Z && (col =? c)%Z); auto. now apply kpush_sorted.
Qed.

Lemma picks_in : forall c data rank k r, In (k, r) (picks c rank data) ->
  rank <= r < rank + length data /\ nth (r - rank) data (0, 0)%Z = (c, k) /\ (0 <= c)%Z.
Proof.
  induction data as [|[col key] t IH]; intros rank k r H; cbn [picks] in H; [destruct H|].
  destruct (0 <=? col)%Z eqn:E1; cbn [andb] in H; [destruct (col =? c)%Z eqn:E2|].
  - apply Z.leb_le in E1. apply Z.eqb_eq in E2. subst col. destruct H as [H|H].
    + injection H as <- <-. rewrite Nat.sub_diag. cbn [length nth]. repeat split; auto; lia.
    + apply IH in H. destruct H as (A & B & C). cbn [length].
      replace (r - rank) with (S (r - S rank)) by lia. cbn [nth]. repeat split; auto; lia.
  - apply IH in H. destruct H as (A & B & C). cbn [length].
    replace (r - rank) with (S (r - S rank)) by lia. cbn [nth]. repeat split; auto; lia.
  - apply IH in H. destruct H as (A & B & C). cbn [length].
    replace (r - rank) with (S (r - S rank)) by lia. cbn [nth]. repeat split; auto; lia.
Qed.

Lemma picks_ranks : forall c data rank, (0 <= c)%Z ->
  map snd (picks c rank data)
  = filter (fun r => (fst (nth (r - rank) data (-1, 0)%Z) =? c)%Z) (seq rank (length data)).
Proof.
  induction data as [|[col key] t IH]; intros rank Hc; [reflexivity|].
  cbn [picks length seq].
  assert (E : (0 <=? col)%Z && (col =? c)%Z = (col =? c)%Z).
  { destruct (Z.eqb_spec col c) as [->|]; [|apply andb_false_r].
    rewrite andb_true_r. now apply Z.leb_le. }
  set (f := fun r => (fst (nth (r - rank) ((col, key) :: t) (-1, 0)%Z) =? c)%Z).
  assert (F : filter f (seq (S rank) (length t))
            = filter (fun r => (fst (nth (r - S rank) t (-1, 0)%Z) =? c)%Z) (seq (S rank) (length t))).
  { apply filter_ext_in. intros r Hr. apply in_seq in Hr. unfold f.
    replace (r - rank) with (S (r - S rank)) by lia. reflexivity. }
  cbn [filter]. rewrite E, F. rewrite <- (IH (S rank) Hc).
  assert (G : f rank = (col =? c)%Z) by (unfold f; now rewrite Nat.sub_diag).
  rewrite G. destruct (col =? c)%Z; reflexivity.
Qed.

Definition sflat (m : list (Z * list nat)) : list (Z * nat) :=
  flat_map (fun e => map (pair (fst e)) (lsort (snd e))) m.

Lemma sflat_perm : forall m, Permutation (sflat m) (kflat m).
Proof.
  induction m as [|e t IH]; [reflexivity|]. unfold sflat, kflat in *. cbn [flat_map].
  apply Permutation_app; auto. apply Permutation_map, lsort_perm.
Qed.

Lemma split_ranks_flat : forall c data,
  split_ranks c data = map snd (sflat (kscan c 0 data [])).
Proof.
  intros. unfold split_ranks, sflat. generalize (kscan c 0 data []).
  induction l as [|e t IH]; [reflexivity|]. cbn [flat_map]. rewrite map_app, IH. f_equal.
  rewrite map_map. cbn [snd]. now rewrite map_id.
Qed.

Lemma split_ranks_perm : forall c data, (0 <= c)%Z ->
  Permutation (split_ranks c data)
    (filter (fun r => (fst (nth r data (-1, 0)%Z) =? c)%Z) (seq 0 (length data))).
Proof.
  intros c data Hc. rewrite split_ranks_flat.
  assert (E : filter (fun r => (fst (nth r data (-1, 0)%Z) =? c)%Z) (seq 0 (length data))
              = map snd (picks c 0 data)).
  { rewrite picks_ranks by exact Hc. apply filter_ext_in. intros r _. now rewrite Nat.sub_0_r. }
  rewrite E. apply Permutation_map. rewrite sflat_perm, kscan_flat.
  cbn. now rewrite app_nil_r.
Qed.

Definition lexle (a b : Z * nat) : Prop :=
  (fst a < fst b)%Z \/ (fst a = fst b /\ snd a <= snd b).

Lemma ss_app : forall A (R : A -> A -> Prop) l k,
  StronglySorted R l -> StronglySorted R k ->
  (forall x y, In x l -> In y k -> R x y) -> StronglySorted R (l ++ k).
Proof.
  induction l as [|h t IH]; intros k H K X; [exact K|]. cbn [app].
  inversion H as [|? ? S1 S2]; subst. constructor.
  - apply IH; auto. intros; apply X; auto. right; auto.
  - rewrite Forall_forall in *. intros y Hy. apply in_app_or in Hy.
    destruct Hy as [Hy|Hy]; auto. apply X; auto. left; auto.
Qed.

Lemma sflat_sorted : forall m, ksorted m -> StronglySorted lexle (sflat m).
Proof.
  unfold ksorted. induction m as [|[k l] t IH]; intros H; [constructor|].
  inversion H as [|? ? S1 S2]; subst. unfold sflat. cbn [flat_map fst snd]. apply ss_app.
  - pose proof (lsort_sorted l) as L. induction L as [|x u L1 L2 L3]; [constructor|].
    cbn [map]. constructor; auto. rewrite Forall_forall in *. intros [k0 y] Hy.
    apply in_map_iff in Hy. destruct Hy as (z & E & Hz). injection E as <- <-.
    right. cbn. split; auto.
  - now apply IH.
  - intros [k1 x] [k2 y] Hx Hy.
    apply in_map_iff in Hx. destruct Hx as (z & E & Hz). injection E as <- <-.
    apply in_flat_map in Hy. destruct Hy as ([k3 l3] & H3 & Hy). cbn [fst snd] in Hy.
    apply in_map_iff in Hy. destruct Hy as (y' & E & Hy). injection E as <- <-.
    rewrite Forall_forall in S2. specialize (S2 _ H3). left. exact S2.
Qed.

Lemma split_ranks_nodup : forall c data, NoDup (split_ranks c data).
Proof.
  intros c data. rewrite split_ranks_flat.
  eapply Permutation_NoDup.
  - apply Permutation_map. apply Permutation_sym. rewrite sflat_perm, kscan_flat.
    cbn. rewrite app_nil_r. reflexivity.
  - generalize 0. induction data as [|[col key] t IH]; intros n; cbn [picks]; [constructor|].
    destruct ((0 <=? col)%Z && (col =? c)%Z); auto. cbn [map snd]. constructor; auto.
    intros K. apply in_map_iff in K. destruct K as ([k r] & E & K). cbn [snd] in E. subst.
    apply picks_in in K. lia.
Qed.

Lemma split_ranks_in : forall c data r, In r (split_ranks c data) <->
  (r < length data /\ fst (nth r data (-1, 0)%Z) = c /\ (0 <= c)%Z).
Proof.
  intros c data r. split.
  - rewrite split_ranks_flat. intros H. apply in_map_iff in H. destruct H as ([k x] & <- & H).
    cbn [snd]. apply (Permutation_in _ (sflat_perm _)) in H.
    apply (Permutation_in _ (kscan_flat c data 0 [])) in H.
    cbn in H. rewrite app_nil_r in H. apply picks_in in H.
    rewrite Nat.sub_0_r in H. destruct H as (A & B & C).
    rewrite (nth_indep _ (-1, 0)%Z (0, 0)%Z) by lia. rewrite B. cbn. lia.
  - intros (A & B & C). apply (Permutation_in r (Permutation_sym (split_ranks_perm c data C))).
    apply filter_In. split; [apply in_seq; lia|]. now apply Z.eqb_eq.
Qed.

Lemma split_ranks_sorted : forall c data,
  StronglySorted (fun a b => snd (nth a data (0, 0)%Z) < snd (nth b data (0, 0)%Z)
                  \/ (snd (nth a data (0, 0)%Z) = snd (nth b data (0, 0)%Z) /\ (a < b)%nat))%Z
    (split_ranks c data).
Proof.
  intros c data.
  assert (S := sflat_sorted _ (kscan_sorted c data 0 [] ltac:(constructor))).
  assert (P : forall k r, In (k, r) (sflat (kscan c 0 data [])) -> snd (nth r data (0, 0)%Z) = k).
  { intros k r H. apply (Permutation_in _ (sflat_perm _)) in H.
    apply (Permutation_in _ (kscan_flat c data 0 [])) in H.
    cbn in H. rewrite app_nil_r in H. apply picks_in in H. rewrite Nat.sub_0_r in H.
    destruct H as (_ & B & _). rewrite B. reflexivity. }
  pose proof (split_ranks_nodup c data) as ND. rewrite split_ranks_flat in *.
  revert S P ND. generalize (sflat (kscan c 0 data [])).
  induction l as [|[k r] t IH]; intros S P ND; [constructor|].
  inversion S as [|? ? S1 S2]; subst. cbn [map snd] in *. inversion ND as [|? ? N1 N2]; subst.
  constructor.
  - apply IH; auto. intros; apply P; right; auto.
  - rewrite Forall_forall in *. intros y Hy. apply in_map_iff in Hy.
    destruct Hy as ([k' y'] & E & Hy). cbn [snd] in E. subst y'.
    rewrite (P k r (or_introl eq_refl)), (P k' y (or_intror Hy)).
    specialize (S2 _ Hy). unfold lexle in S2. cbn [fst snd] in S2.
    destruct S2 as [S2|(-> & S2)]; [left; auto|]. right. split; auto.
    assert (r <> y).
    { intros ->. apply N1. apply in_map_iff. exists (k', y). auto. }
    lia.
Qed.

(* ---- ids ---- *)
Lemma maxN_ge : forall l x, In x l -> (x <= maxN l)%N.
Proof.
  induction l as [|y t IH]; intros x H; [destruct H|]. cbn [maxN fold_right]; fold (maxN t).
  destruct H as [<-|H]; [lia|]. specialize (IH _ H). lia.
Qed.

Lemma maxN_le : forall l b, (forall x, In x l -> x <= b)%N -> (maxN l <= b)%N.
Proof.
  induction l as [|y t IH]; intros b H; cbn [maxN fold_right]; [lia|]. fold (maxN t).
  specialize (IH b (fun x K => H x (or_intror K))). specialize (H y (or_introl eq_refl)). lia.
Qed.

Lemma agree_ge : forall w ms p, In p ms -> (pr_next (w p) <= agree w ms)%N.
Proof. intros. unfold agree. apply maxN_ge. apply in_map_iff. eauto. Qed.

Record cinv (n : nat) (k : N) (w : world) : Prop := {
  ci_next : forall p, (2 <= pr_next (w p) <= k + 2)%N;
  ci_mem : forall p id g, p < n -> In (id, g) (pr_comms (w p)) ->
     In p (g_tasks g) /\ forall q, In q (g_tasks g) -> q < n;
  ci_lt : forall p id g q, p < n -> In (id, g) (pr_comms (w p)) -> id <> comm_self ->
     In q (g_tasks g) -> (id < pr_next (w q))%N;
  ci_self : forall p g, p < n -> In (comm_self, g) (pr_comms (w p)) -> g = Tasks [p];
  ci_same : forall p q id g1 g2, p < n -> q < n -> In (id, g1) (pr_comms (w p)) ->
     In (id, g2) (pr_comms (w q)) -> In q (g_tasks g1) -> g1 = g2;
  ci_nd : forall p, p < n -> NoDup (map fst (pr_comms (w p)))
}.

Record creates (n : nat) (w w' : world) (ms : list nat) (S : nat -> bool)
    (G : nat -> option group) : Prop := {
  cr_in : forall p, S p = true -> In p ms;
  cr_yes : forall p, S p = true -> w' p = Proc (agree w ms + 1)
     (match G p with Some g => (agree w ms, g) :: pr_comms (w p) | None => pr_comms (w p) end);
  cr_no : forall p, S p = false -> w' p = w p;
  cr_grp : forall p g, p < n -> S p = true -> G p = Some g -> In p (g_tasks g)
     /\ forall q, In q (g_tasks g) -> q < n /\ S q = true /\ G q = Some g
}.

Lemma creates_next : forall n w w' ms S G, creates n w w' ms S G ->
  forall p, (pr_next (w p) <= pr_next (w' p))%N.
Proof.
  intros n w w' ms S G C p. destruct (S p) eqn:E.
  - rewrite (cr_yes _ _ _ _ _ _ C p E). cbn [pr_next].
    pose proof (agree_ge w ms p (cr_in _ _ _ _ _ _ C p E)). lia.
  - rewrite (cr_no _ _ _ _ _ _ C p E). lia.
Qed.

Lemma creates_comms : forall n w w' ms S G, creates n w w' ms S G ->
  forall p id g, In (id, g) (pr_comms (w' p)) ->
  In (id, g) (pr_comms (w p)) \/ (S p = true /\ id = agree w ms /\ G p = Some g).
Proof.
  intros n w w' ms S G C p id g H. destruct (S p) eqn:E.
  - rewrite (cr_yes _ _ _ _ _ _ C p E) in H. cbn [pr_comms] in H.
    destruct (G p) eqn:F; auto. destruct H as [H|H]; auto. injection H as <- <-. auto.
  - rewrite (cr_no _ _ _ _ _ _ C p E) in H. auto.
Qed.

Lemma creates_inv : forall n k w w' ms S G, cinv n k w -> creates n w w' ms S G ->
  ms <> [] -> (k + 2 < comm_self)%N -> cinv n (k + 1) w'.
Proof.
  intros n k w w' ms S G I C NE L.
  assert (AL : (agree w ms <= k + 2)%N).
  { unfold agree. apply maxN_le. intros x H. apply in_map_iff in H.
    destruct H as (p & <- & _). apply (ci_next _ _ _ I). }
  assert (AS : agree w ms <> comm_self) by lia.
  assert (FR : forall p q g, p < n -> In (agree w ms, g) (pr_comms (w p)) ->
               In q (g_tasks g) -> S q = true -> False).
  { intros p q g Hp H Hq HS. pose proof (ci_lt _ _ _ I _ _ _ _ Hp H AS Hq).
    pose proof (agree_ge w ms q (cr_in _ _ _ _ _ _ C q HS)). lia. }
  constructor.
  - intros p. pose proof (creates_next _ _ _ _ _ _ C p). pose proof (ci_next _ _ _ I p).
    split; [lia|]. destruct (S p) eqn:E.
    + rewrite (cr_yes _ _ _ _ _ _ C p E). cbn [pr_next]. lia.
    + rewrite (cr_no _ _ _ _ _ _ C p E). lia.
  - intros p id g Hp H. apply (creates_comms _ _ _ _ _ _ C) in H.
    destruct H as [H|(HS & -> & HG)]; [now apply (ci_mem _ _ _ I p id)|].
    destruct (cr_grp _ _ _ _ _ _ C p g Hp HS HG) as (A & B). split; auto.
    intros q Hq. apply (B q Hq).
  - intros p id g q Hp H Hs Hq. apply (creates_comms _ _ _ _ _ _ C) in H.
    destruct H as [H|(HS & -> & HG)].
    + pose proof (creates_next _ _ _ _ _ _ C q).
      pose proof (ci_lt _ _ _ I _ _ _ _ Hp H Hs Hq). lia.
    + destruct (cr_grp _ _ _ _ _ _ C p g Hp HS HG) as (A & B).
      destruct (B q Hq) as (_ & HSq & _). rewrite (cr_yes _ _ _ _ _ _ C q HSq). cbn [pr_next]. lia.
  - intros p g Hp H. apply (creates_comms _ _ _ _ _ _ C) in H.
    destruct H as [H|(_ & E & _)]; [now apply (ci_self _ _ _ I)|congruence].
  - intros p q id g1 g2 Hp Hq H1 H2 Hin.
    apply (creates_comms _ _ _ _ _ _ C) in H1. apply (creates_comms _ _ _ _ _ _ C) in H2.
    destruct H1 as [H1|(S1 & E1 & G1)]; destruct H2 as [H2|(S2 & E2 & G2)].
    + eapply (ci_same _ _ _ I p q); eauto.
    + subst id. exfalso. exact (FR p q g1 Hp H1 Hin S2).
    + subst id. exfalso. destruct (cr_grp _ _ _ _ _ _ C p g1 Hp S1 G1) as (A & B).
      destruct (B q Hin) as (_ & HSq & _).
      exact (FR q q g2 Hq H2 (proj1 (ci_mem _ _ _ I q _ g2 Hq H2)) HSq).
    + destruct (cr_grp _ _ _ _ _ _ C p g1 Hp S1 G1) as (A & B).
      destruct (B q Hin) as (_ & _ & G3). congruence.
  - intros p Hp. destruct (S p) eqn:E.
    + rewrite (cr_yes _ _ _ _ _ _ C p E). cbn [pr_comms].
      destruct (G p) eqn:F; [|now apply (ci_nd _ _ _ I)].
      cbn [map fst]. constructor; [|now apply (ci_nd _ _ _ I)].
      intros K. apply in_map_iff in K. destruct K as ([id g'] & Ei & K). cbn [fst] in Ei. subst id.
      exact (FR p p g' Hp K (proj1 (ci_mem _ _ _ I p _ g' Hp K)) E).
    + rewrite (cr_no _ _ _ _ _ _ C p E). now apply (ci_nd _ _ _ I).
Qed.

(* what a correct MPI program may do *)
Definition clegal (n : nat) (o : cop) : Prop :=
  match o with
  | CCreate ms g => ms <> [] /\ NoDup (g_tasks g) /\ (forall q, In q (g_tasks g) -> In q ms)
      /\ (forall q, In q ms -> q < n) /\ (forall m, g = World m -> m = n)
  | CCreateGroup g => g_tasks g <> [] /\ NoDup (g_tasks g)
      /\ (forall q, In q (g_tasks g) -> q < n)
  | CSplit ms data => ms <> [] /\ NoDup ms /\ (forall q, In q ms -> q < n)
      /\ length data = length ms
  | CFree p id => True
  end.

Definition create_who (ms : list nat) (p : nat) : bool := memb p ms.
Definition create_grp (g : group) (p : nat) : option group :=
  match g_rank g p with Some _ => Some g | None => None end.

Lemma g_rank_tasks : forall n g p i, (forall m, g = World m -> m = n) -> p < n ->
  g_rank g p = Some i -> In p (g_tasks g).
Proof.
  intros n [m|l] p i W Hp H; cbn [g_rank g_tasks] in *.
  - rewrite (W m eq_refl). apply in_seq. lia.
  - apply index_of_some in H. eapply nth_error_In; eauto.
Qed.

Lemma tasks_g_rank : forall g p, In p (g_tasks g) -> exists i, g_rank g p = Some i.
Proof.
  intros [m|l] p H; cbn [g_rank g_tasks] in *; [eauto|]. now apply index_of_in.
Qed.

Lemma create_creates : forall n w ms g, clegal n (CCreate ms g) ->
  creates n w (comm_create w ms g) ms (create_who ms) (create_grp g).
Proof.
  intros n w ms g (NE & ND & SUB & LT & WD). constructor.
  - intros p H. now apply memb_in.
  - intros p H. unfold comm_create, create_who in *. rewrite H. cbv zeta.
    unfold create_grp. destruct (g_rank g p); reflexivity.
  - intros p H. unfold comm_create, create_who in *. now rewrite H.
  - intros p g' Hp HS HG. unfold create_grp in HG.
    destruct (g_rank g p) eqn:E; [|discriminate]. injection HG as <-.
    split; [eapply g_rank_tasks; eauto|].
    intros q Hq. split; [auto|]. split; [apply memb_in; auto|].
    unfold create_grp. destruct (tasks_g_rank g q Hq) as (i & ->). reflexivity.
Qed.

Definition cg_who (g : group) (p : nat) : bool := memb p (g_tasks g).

Lemma create_group_creates : forall n w g, clegal n (CCreateGroup g) ->
  creates n w (comm_create_group w g) (g_tasks g) (cg_who g) (fun _ => Some g).
Proof.
  intros n w g (NE & ND & LT). constructor.
  - intros p H. now apply memb_in.
  - intros p H. unfold comm_create_group, cg_who in *.
    destruct (tasks_g_rank g p) as (i & ->); [now apply memb_in|]. rewrite H. reflexivity.
  - intros p H. unfold comm_create_group, cg_who in *.
    destruct (g_rank g p); [|reflexivity]. now rewrite H.
  - intros p g' Hp HS HG. injection HG as <-. split; [now apply memb_in|].
    intros q Hq. repeat split; auto. now apply memb_in.
Qed.

Definition sp_color (ms : list nat) (data : list (Z * Z)) (p : nat) : option Z :=
  match index_of p ms with
  | Some r => let c := fst (nth r data (-1, 0)%Z) in if (c <? 0)%Z then None else Some c
  | None => None
  end.
Definition sp_who ms data p : bool := match sp_color ms data p with Some _ => true | None => false end.
Definition sp_grp ms data p : option group :=
  match sp_color ms data p with Some c => Some (split_group ms c data) | None => None end.

Lemma sp_group_in : forall n ms data c q, clegal n (CSplit ms data) -> (0 <= c)%Z ->
  (In q (g_tasks (split_group ms c data)) <-> sp_color ms data q = Some c).
Proof.
  intros n ms data c q (NE & ND & LT & LEN) Hc. unfold split_group. cbn [g_tasks].
  unfold sp_color. split.
  - intros H. apply in_map_iff in H. destruct H as (r & E & H). apply split_ranks_in in H.
    destruct H as (A & B & _). assert (Hr : r < length ms) by lia.
    rewrite (index_of_nth q ms r ND).
    + rewrite B. cbv zeta. destruct (Z.ltb_spec c 0); [lia|]. reflexivity.
    + rewrite <- E. now apply nth_error_nth'.
  - destruct (index_of q ms) as [r|] eqn:E; [|discriminate]. cbv zeta.
    destruct (Z.ltb_spec (fst (nth r data (-1, 0)%Z)) 0); [discriminate|].
    intros F. injection F as F. apply index_of_some in E.
    apply in_map_iff. exists r. split; [now apply nth_error_nth|].
    apply split_ranks_in. repeat split; auto. rewrite LEN.
    apply nth_error_Some. congruence.
Qed.

Lemma sp_color_nonneg : forall ms data p c, sp_color ms data p = Some c -> (0 <= c)%Z.
Proof.
  intros ms data p c H. unfold sp_color in H. destruct (index_of p ms); [|discriminate].
  cbv zeta in H. destruct (Z.ltb_spec (fst (nth n data (-1, 0)%Z)) 0); [discriminate|].
  injection H as <-. lia.
Qed.

Lemma split_creates : forall n w ms data, clegal n (CSplit ms data) ->
  creates n w (comm_split w ms data) ms (sp_who ms data) (sp_grp ms data).
Proof.
  intros n w ms data L. pose proof L as (NE & ND & LT & LEN). constructor.
  - intros p H. unfold sp_who, sp_color in H. destruct (index_of p ms) eqn:E; [|discriminate].
    apply index_of_some in E. eapply nth_error_In; eauto.
  - intros p H. unfold comm_split, sp_who, sp_grp, sp_color in *.
    destruct (index_of p ms); [|discriminate]. cbv zeta in *.
    destruct (fst (nth n0 data (-1, 0)%Z) <? 0)%Z; [discriminate|]. reflexivity.
  - intros p H. unfold comm_split, sp_who, sp_grp, sp_color in *.
    destruct (index_of p ms); [|reflexivity]. cbv zeta in *.
    destruct (fst (nth n0 data (-1, 0)%Z) <? 0)%Z; [reflexivity|discriminate].
  - intros p g Hp HS HG. unfold sp_grp in HG.
    destruct (sp_color ms data p) as [c|] eqn:E; [|discriminate]. injection HG as <-.
    pose proof (sp_color_nonneg _ _ _ _ E) as Hc.
    split; [now apply (sp_group_in n)|]. intros q Hq.
    apply (sp_group_in n) in Hq; auto. split; [|split].
    + apply LT. unfold sp_color in Hq. destruct (index_of q ms) eqn:F; [|discriminate].
      apply index_of_some in F. eapply nth_error_In; eauto.
    + unfold sp_who. now rewrite Hq.
    + unfold sp_grp. now rewrite Hq.
Qed.

Lemma free_inv : forall n k w p id, cinv n k w -> cinv n (k + 1) (comm_free w p id).
Proof.
  intros n k w p id I.
  assert (NX : forall q, pr_next (comm_free w p id q) = pr_next (w q)).
  { intros q. unfold comm_free. destruct (q =? p); reflexivity. }
  assert (IN : forall q i g, In (i, g) (pr_comms (comm_free w p id q)) -> In (i, g) (pr_comms (w q))).
  { intros q i g. unfold comm_free. destruct (q =? p); cbn [pr_comms]; auto.
    intros H. apply filter_In in H. tauto. }
  constructor.
  - intros q. rewrite NX. pose proof (ci_next _ _ _ I q). lia.
  - intros q i g Hq H. apply IN in H. now apply (ci_mem _ _ _ I q i).
  - intros q i g t Hq H. rewrite NX. apply IN in H. now apply (ci_lt _ _ _ I q i).
  - intros q g Hq H. apply IN in H. now apply (ci_self _ _ _ I).
  - intros q t i g1 g2 Hq Ht H1 H2. apply IN in H1. apply IN in H2.
    now apply (ci_same _ _ _ I q t i).
  - intros q Hq. pose proof (ci_nd _ _ _ I q Hq) as ND. unfold comm_free.
    destruct (q =? p); auto. cbn [pr_comms]. revert ND. generalize (pr_comms (w q)).
    induction l as [|[i g] t IH]; intros ND; cbn [filter]; [constructor|].
    inversion ND as [|? ? N1 N2]; subst. cbn [fst]. destruct (i =? id)%N; cbn [negb]; auto.
    cbn [map fst]. constructor; auto. intros K. apply N1.
    apply in_map_iff in K. destruct K as (x & E & K). apply filter_In in K.
    apply in_map_iff. exists x. tauto.
Qed.

Lemma proc0_inv : forall n, cinv n 0 (proc0 n).
Proof.
  intros n. constructor; unfold proc0; cbn [pr_next pr_comms].
  - intros; lia.
  - intros p id g Hp [H|[H|[]]]; injection H as <- <-; cbn [g_tasks].
    + split; [apply in_seq; lia|]. intros q Hq. apply in_seq in Hq. lia.
    + split; [left; reflexivity|]. intros q [<-|[]]; auto.
  - intros p id g q Hp [H|[H|[]]]; injection H as <- <-; intros NS _.
    + unfold comm_world. lia.
    + congruence.
  - intros p g Hp [H|[H|[]]]; injection H as H1.
    + discriminate H1.
    + now subst.
  - intros p q id g1 g2 Hp Hq [H|[H|[]]] [K|[K|[]]] Hin.
    + congruence.
    + exfalso. assert (comm_world = comm_self) by congruence. discriminate.
    + exfalso. assert (comm_world = comm_self) by congruence. discriminate.
    + assert (g1 = Tasks [p] /\ g2 = Tasks [q]) as (-> & ->) by (split; congruence).
      destruct Hin as [->|[]]. reflexivity.
  - intros p Hp. cbn [map fst]. constructor; [intros [K|[]]; discriminate K|].
    constructor; [intros []|constructor].
Qed.

Lemma cstep_inv : forall n k w o, cinv n k w -> clegal n o -> (k + 2 < comm_self)%N ->
  cinv n (k + 1) (cstep w o).
Proof.
  intros n k w o I L B. destruct o as [ms g|g|ms data|p id]; cbn [cstep].
  - eapply creates_inv; eauto; [apply create_creates; exact L|]. apply L.
  - eapply creates_inv; eauto; [apply create_group_creates; exact L|]. apply L.
  - eapply creates_inv; eauto; [apply split_creates; exact L|]. apply L.
  - now apply free_inv.
Qed.

Lemma cruns_inv : forall n ops k w, cinv n k w -> Forall (clegal n) ops ->
  (k + N.of_nat (length ops) + 1 < comm_self)%N ->
  cinv n (k + N.of_nat (length ops)) (fold_left cstep ops w).
Proof.
  induction ops as [|o t IH]; intros k w I L B; cbn [fold_left length] in *.
  - now rewrite N.add_0_r.
  - inversion L as [|? ? L1 L2]; subst.
    replace (k + N.of_nat (S (length t)))%N with (k + 1 + N.of_nat (length t))%N by lia.
    apply IH; auto; [|lia]. apply cstep_inv; auto. lia.
Qed.

(* ---- cartesian ---- *)
Definition prod (l : list Z) : Z := fold_right Z.mul 1%Z l.
Definition pos_dims (l : list Z) : Prop := forall d, In d l -> (0 < d)%Z.

Lemma prod_pos : forall l, pos_dims l -> (0 < prod l)%Z.
Proof.
  induction l as [|d t IH]; intros H; cbn; [lia|]. fold (prod t).
  assert (0 < d)%Z by (apply H; left; auto).
  assert (0 < prod t)%Z by (apply IH; intros x Hx; apply H; right; auto).
  now apply Z.mul_pos_pos.
Qed.

Lemma coords_from_div : forall dims prev r, (0 < prev)%Z -> (0 <= r)%Z -> pos_dims dims ->
  coords_from prev dims r = coords_from 1 dims (r / prev).
Proof.
  assert (G : forall dims a b r, (0 < a)%Z -> (0 < b)%Z -> (0 <= r)%Z -> pos_dims dims ->
     coords_from (a * b) dims r = coords_from b dims (r / a)).
  { induction dims as [|d t IH]; intros a b r Ha Hb Hr P; [reflexivity|].
    cbn [coords_from]. f_equal.
    - rewrite !Z.quot_div_nonneg; try nia; [|apply Z.div_pos; lia].
      now rewrite Z.div_div by lia.
    - rewrite <- Z.mul_assoc. apply IH; auto.
      + assert (0 < d)%Z by (apply P; left; auto). nia.
      + intros x Hx. apply P. right; auto. }
  intros dims prev r Hp Hr P. rewrite <- (Z.mul_1_r prev) at 1. apply G; auto; lia.
Qed.

Lemma coords_cons : forall d t r, (0 < d)%Z -> (0 <= r)%Z -> pos_dims t ->
  set_coords (d :: t) r = (r mod d)%Z :: set_coords t (r / d).
Proof.
  intros d t r Hd Hr P. unfold set_coords. cbn [coords_from].
  rewrite Z.quot_1_r, Z.rem_mod_nonneg by lia. f_equal. rewrite Z.mul_1_l.
  now apply coords_from_div.
Qed.

Lemma rank_from_mul : forall dims prev cs, rank_from prev dims cs = (prev * rank_from 1 dims cs)%Z.
Proof.
  assert (G : forall dims a b cs, rank_from (a * b) dims cs = (a * rank_from b dims cs)%Z).
  { induction dims as [|d t IH]; intros a b cs; destruct cs as [|c u]; cbn [rank_from]; try lia.
    rewrite <- Z.mul_assoc, IH. lia. }
  intros dims prev cs. rewrite <- (Z.mul_1_r prev) at 1. apply G.
Qed.

Lemma rank_cons : forall d t c u, cart_rank (d :: t) (c :: u) = (c + d * cart_rank t u)%Z.
Proof.
  intros. unfold cart_rank. cbn [rank_from]. rewrite (rank_from_mul t (1 * d)). lia.
Qed.

Lemma coords_rank : forall dims r, pos_dims dims -> (0 <= r < prod dims)%Z ->
  cart_rank dims (set_coords dims r) = r.
Proof.
  induction dims as [|d t IH]; intros r P H; cbn [prod fold_right] in H.
  - cbn. lia.
  - fold (prod t) in *. assert (Hd : (0 < d)%Z) by (apply P; left; auto).
    assert (Pt : pos_dims t) by (intros x Hx; apply P; right; auto).
    rewrite coords_cons by (auto; lia). rewrite rank_cons, IH; auto.
    + pose proof (Z.div_mod r d). lia.
    + split; [apply Z.div_pos; lia|]. apply Z.div_lt_upper_bound; auto; lia.
Qed.

Definition in_grid (dims coords : list Z) : Prop := Forall2 (fun d c => 0 <= c < d)%Z dims coords.

Lemma in_grid_pos : forall dims cs, in_grid dims cs -> pos_dims dims.
Proof.
  intros dims cs H. induction H as [|d c t u H H2 IH]; intros x Hx; [destruct Hx|].
  destruct Hx as [<-|Hx]; [lia|]. now apply IH.
Qed.

Lemma rank_range : forall dims cs, in_grid dims cs -> (0 <= cart_rank dims cs < prod dims)%Z.
Proof.
  intros dims cs H. induction H as [|d c t u H H2 IH]; [cbn; lia|].
  rewrite rank_cons. cbn [prod fold_right]. fold (prod t). nia.
Qed.

Lemma rank_coords : forall dims cs, in_grid dims cs -> set_coords dims (cart_rank dims cs) = cs.
Proof.
  intros dims cs H. induction H as [|d c t u H H2 IH]; [reflexivity|].
  pose proof (rank_range t u H2). pose proof (in_grid_pos t u H2).
  rewrite rank_cons, coords_cons; auto; try nia.
  rewrite (Z.mul_comm d), Z.mod_add, Z.div_add by lia.
  rewrite Z.mod_small, Z.div_small by lia. rewrite Z.add_0_l, IH. reflexivity.
Qed.

Lemma coords_in_grid : forall dims r, pos_dims dims -> (0 <= r)%Z -> in_grid dims (set_coords dims r).
Proof.
  induction dims as [|d t IH]; intros r P H; [constructor|].
  assert (Hd : (0 < d)%Z) by (apply P; left; auto).
  assert (Pt : pos_dims t) by (intros x Hx; apply P; right; auto).
  rewrite coords_cons by auto. constructor.
  - apply Z.mod_pos_bound; auto.
  - apply IH; auto. apply Z.div_pos; lia.
Qed.

Lemma set_at_grid : forall dims cs i d x, in_grid dims cs -> nth_error dims i = Some d ->
  (0 <= x < d)%Z -> in_grid dims (set_at cs i x).
Proof.
  intros dims cs i d x H. revert i. induction H as [|d0 c t u H H2 IH]; intros i E X.
  - destruct i; discriminate.
  - destruct i as [|i]; cbn [set_at nth_error] in *.
    + injection E as ->. constructor; auto.
    + constructor; auto. now apply IH.
Qed.

Lemma nth_set_at : forall l i x j, i < length l ->
  nth j (set_at l i x) 0%Z = if j =? i then x else nth j l 0%Z.
Proof.
  induction l as [|h t IH]; intros i x j L; cbn [length] in L; [lia|].
  destruct i as [|i]; cbn [set_at].
  - destruct j; reflexivity.
  - destruct j as [|j]; cbn [nth]; [reflexivity|]. rewrite IH by lia. reflexivity.
Qed.

Lemma set_at_length : forall l i x, length (set_at l i x) = length l.
Proof. induction l as [|h t IH]; intros [|i] x; cbn; auto. Qed.

(* ---- tags ---- *)
Lemma tag16_add : forall id c, tag16 id c = ((id mod 65536) * 65536 + c mod 65536)%N.
Proof.
  intros id c. unfold tag16. set (a := (id mod 65536)%N). set (b := (c mod 65536)%N).
  assert (Z : N.land (N.shiftl a 16) b = 0%N).
  { apply N.bits_inj. intros i. rewrite N.land_spec, N.bits_0.
    destruct (N.ltb_spec i 16).
    - rewrite N.shiftl_spec_low by auto. reflexivity.
    - unfold b. change 65536%N with (2 ^ 16)%N. rewrite N.mod_pow2_bits_high by auto.
      apply andb_false_r. }
  pose proof (N.add_nocarry_lxor _ _ Z) as A. rewrite N.lxor_lor in A by exact Z.
  rewrite <- A, N.shiftl_mul_pow2. reflexivity.
Qed.

Lemma nth_tag_eq : forall i id c, (c < 65536)%N ->
  nth_tag (id, c) i = tag16 id (c + N.of_nat i).
Proof.
  induction i as [|i IH]; intros id c H; cbn [nth_tag next_tag fst snd].
  - now rewrite N.add_0_r.
  - rewrite IH by (apply N.mod_lt; lia). unfold tag16. f_equal.
    rewrite N.add_mod_idemp_l by lia. f_equal. lia.
Qed.
