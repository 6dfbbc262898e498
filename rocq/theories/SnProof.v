(** Reasoning about the scan: rounds, messages and buffers. *)
From Coq Require Import List Arith Lia Bool.
From Verif Require Import RdModel RdProof ArModel ArRun PhModel PhProof GaProof SnModel.
Import ListNotations.

Section ScanProof.
Context {T : Type}.
Variable op : T -> T -> T.
Variables (n nelems : nat).
Variable rb : bool.
Variables (src wsp dst : nat -> nat -> T).
Let g := scan_with op n nelems rb src wsp dst.

Definition sn_act (me k : nat) : bool := (me + 2 ^ k <? n) || (2 ^ k <=? me).
Definition sn_ph (me k : nat) : phase (@sbufs T) (list T) :=
  {| ph_loc := if rb && negb (k =? 0) && (me + 2 ^ k <? n) then sn_shuffle nelems else fun b => b;
     ph_snd := if me + 2 ^ k <? n then [sn_send nelems k (me + 2 ^ k)] else [];
     ph_rcv := if 2 ^ k <=? me then [sn_recv op nelems k (me - 2 ^ k)] else [] |}.

Lemma sn_act_down : forall me j k, j <= k -> sn_act me k = true -> sn_act me j = true.
Proof.
  intros me j k H. unfold sn_act. pose proof (Nat.pow_le_mono_r 2 j k ltac:(lia) H). rewrite !orb_true_iff, !Nat.ltb_lt, !Nat.leb_le.
  lia.
Qed.
Lemma sn_act_lt : forall me k, me < n -> sn_act me k = true -> 2 ^ k < n.
Proof. intros me k Hm. unfold sn_act. rewrite orb_true_iff, Nat.ltb_lt, Nat.leb_le. lia. Qed.

Lemma sn_loop_nth : forall f me rnd k, k < f ->
  nth_error (sn_loop op n nelems rb f me (2 ^ rnd) rnd) k =
  if sn_act me (rnd + k) then Some (sn_ph me (rnd + k)) else None.
Proof.
  induction f as [|f IH]; intros me rnd k Hk; [lia|]. cbn [sn_loop].
  replace (2 ^ rnd * 2) with (2 ^ S rnd) by (cbn [Nat.pow]; lia).
  destruct k as [|k].
  - rewrite Nat.add_0_r. unfold sn_act. destruct ((me + 2 ^ rnd <? n) || (2 ^ rnd <=? me)); reflexivity.
  - change ((me + 2 ^ rnd <? n) || (2 ^ rnd <=? me)) with (sn_act me rnd).
    destruct (sn_act me rnd) eqn:E.
    + cbn [nth_error]. rewrite IH by lia. rewrite Nat.add_succ_r. reflexivity.
    + cbn [nth_error]. destruct (sn_act me (rnd + S k)) eqn:E2; [|reflexivity].
      rewrite (sn_act_down me rnd (rnd + S k) (Nat.le_add_r _ _) E2) in E. discriminate.
Qed.
Lemma sn_loop_len : forall f me gap rnd, length (sn_loop op n nelems rb f me gap rnd) <= f.
Proof.
  induction f as [|f IH]; intros; cbn [sn_loop]; [cbn; lia|]. destruct (_ || _); cbn [length]; [|lia].
  specialize (IH me (gap * 2) (S rnd)). lia.
Qed.

Lemma sn_nth : forall me k, me < n ->
  nth_error (pg_ph g me) k = if sn_act me k then Some (sn_ph me k) else None.
Proof.
  intros me k Hm. cbn [g scan_with pg_ph]. destruct (le_lt_dec (S n) k) as [H|H].
  - destruct (sn_act me k) eqn:E.
    + apply sn_act_lt in E; [|exact Hm]. pose proof (Nat.pow_gt_lin_r 2 k ltac:(lia)). lia.
    + apply nth_error_None. pose proof (sn_loop_len (S n) me 1 0). lia.
  - exact (sn_loop_nth (S n) me 0 k H).
Qed.

(** Which messages there are. *)
Lemma sn_all_s : forall t p q, p < n -> In (t, q) (all_s (pg_ph g p)) <-> q = p + 2 ^ t /\ q < n.
Proof.
  intros t p q Hp. split.
  - intros H. apply all_s_in in H. destruct H as (k & h & Hk & Hx & _). rewrite sn_nth in Hk by exact Hp.
    destruct (sn_act p k); [|discriminate]. injection Hk as <-. cbn [sn_ph ph_snd] in Hx.
    destruct (Nat.ltb_spec (p + 2 ^ k) n) as [Hl|]; [|destruct Hx]. destruct Hx as [E|[]]. injection E as <- <-. auto.
  - intros (-> & Hl). apply in_flat_map. exists (sn_ph p t). split.
    + apply nth_error_In with (n := t). rewrite sn_nth by exact Hp. unfold sn_act.
      destruct (Nat.ltb_spec (p + 2 ^ t) n); [reflexivity|lia].
    + cbn [sn_ph ph_snd]. destruct (Nat.ltb_spec (p + 2 ^ t) n); [|lia]. left. reflexivity.
Qed.
Lemma sn_all_r : forall t p q, p < n -> In (t, q) (all_r (pg_ph g p)) <-> p = q + 2 ^ t.
Proof.
  intros t p q Hp. split.
  - intros H. apply in_flat_map in H. destruct H as (h & Hh & Hx). apply In_nth_error in Hh. destruct Hh as (k & Hk).
    rewrite sn_nth in Hk by exact Hp. destruct (sn_act p k); [|discriminate]. injection Hk as <-. cbn [sn_ph ph_rcv] in Hx.
    destruct (Nat.leb_spec (2 ^ k) p) as [Hl|]; [|destruct Hx]. destruct Hx as [E|[]]. injection E as <- <-. lia.
  - intros ->. apply (all_r_of _ _ _ t (sn_ph (q + 2 ^ t) t)).
    + rewrite sn_nth by exact Hp. unfold sn_act. destruct (Nat.leb_spec (2 ^ t) (q + 2 ^ t)); [|lia].
      rewrite orb_true_r. reflexivity.
    + cbn [sn_ph ph_rcv]. destruct (Nat.leb_spec (2 ^ t) (q + 2 ^ t)); [|lia]. left. cbn [sn_recv fst]. f_equal. lia.
Qed.

Lemma nodup_flat : forall (A : Type) (f : A -> list (nat * nat)) (l : list A),
  (forall k a, nth_error l k = Some a -> length (f a) <= 1 /\ forall x, In x (f a) -> fst x = k) ->
  NoDup (flat_map f l).
Proof.
  intros A f l. assert (G : forall b, (forall k a, nth_error l k = Some a ->
     length (f a) <= 1 /\ forall x, In x (f a) -> fst x = b + k) -> NoDup (flat_map f l)).
  { induction l as [|a l IH]; intros b H; cbn [flat_map]; [constructor|].
    assert (Hr : NoDup (flat_map f l)).
    { apply (IH (S b)). intros k a' Hk. destruct (H (S k) a' Hk) as (H1 & H2). split; [exact H1|].
      intros x Hx. rewrite (H2 x Hx). lia. }
    destruct (H 0 a eq_refl) as (H1 & H2). destruct (f a) as [|x [|y r]]; cbn [length app] in *; [exact Hr| |lia].
    constructor; [|exact Hr]. intros Hin. apply in_flat_map in Hin. destruct Hin as (a' & Ha & Hx).
    apply In_nth_error in Ha. destruct Ha as (k & Hk). destruct (H (S k) a' Hk) as (_ & H3).
    specialize (H3 x Hx). rewrite (H2 x (or_introl eq_refl)) in H3. lia. }
  exact (G 0).
Qed.

Lemma sn_balanced_single : balanced g /\ single g.
Proof.
  apply balanced_by_in.
  - intros p Hp. cbn [g scan_with pg_np] in Hp.
    split; apply nodup_flat; intros k h Hk; rewrite sn_nth in Hk by exact Hp;
      (destruct (sn_act p k); [injection Hk as <-|discriminate]); cbn [sn_ph ph_snd ph_rcv].
    + destruct (p + 2 ^ k <? n); (split; [cbn; lia|]); [intros x [<-|[]]; reflexivity|intros x []].
    + destruct (2 ^ k <=? p); (split; [cbn; lia|]); [intros x [<-|[]]; reflexivity|intros x []].
  - intros t p q Hp Hq. cbn [g scan_with pg_np] in *. rewrite sn_all_s, sn_all_r by assumption. intuition.
Qed.
Lemma sn_inside : inside g.
Proof.
  intros t p q Hp. cbn [g scan_with pg_np] in *. split; intros H.
  - apply sn_all_s in H; tauto.
  - apply sn_all_r in H; lia.
Qed.
Lemma sn_ordered : ordered g (fun _ k => k).
Proof.
  split; [intros; lia|]. intros p k h t q Hp Hk Hin. cbn [g scan_with pg_np] in *.
  rewrite sn_nth in Hk by exact Hp. destruct (sn_act p k); [injection Hk as <-|discriminate]. cbn [sn_ph ph_rcv] in Hin.
  destruct (Nat.leb_spec (2 ^ k) p) as [Hl|]; [|destruct Hin]. destruct Hin as [E|[]]. injection E as <- <-.
  pose proof (Nat.pow_nonzero 2 k ltac:(lia)).
  exists k, (sn_ph (p - 2 ^ k) k). split; [|split; [|lia]].
  - rewrite sn_nth by lia. unfold sn_act. destruct (Nat.ltb_spec (p - 2 ^ k + 2 ^ k) n); [reflexivity|lia].
  - cbn [sn_ph ph_snd]. destruct (Nat.ltb_spec (p - 2 ^ k + 2 ^ k) n); [|lia]. left. cbn [sn_send fst]. f_equal. lia.
Qed.

(** The values: [rv k p] is the result of [p] before round [k], [sv k p] what it
    sends in round [k]. *)
Fixpoint rv (k p i : nat) : T :=
  match k with
  | 0 => src p i
  | S j => if 2 ^ j <=? p
           then op (rv j p i) (if rb then rv j (p - 2 ^ j) i else src (p - 2 ^ j) i)
           else rv j p i
  end.
Definition sv (k p i : nat) : T := if rb then rv k p i else src p i.

Definition sn_inv (p k : nat) (b : @sbufs T) : Prop :=
  (forall i, i < nelems -> snd b i = rv k p i) /\
  (forall i, nelems <= i -> snd b i = dst p i) /\
  (k = 0 \/ rb = false -> forall i, i < nelems -> fst b i = src p i).
Definition sn_good (t p q : nat) (v : list T) : Prop := v = map (sv t p) (seq 0 nelems).

Lemma bread_map : forall (b f : nat -> T) m, (forall i, i < m -> b i = f i) -> bread b 0 m = map f (seq 0 m).
Proof. intros b f m H. unfold bread. apply map_ext_in. intros i Hi. apply in_seq in Hi. apply H. lia. Qed.

Lemma nth_map_seq : forall (f : nat -> T) m i d, i < m -> nth i (map f (seq 0 m)) d = f i.
Proof.
  intros f m i d H. rewrite (nth_indep _ d (f 0)) by (rewrite map_length, seq_length; exact H).
  rewrite map_nth, seq_nth by exact H. reflexivity.
Qed.

(** The buffers once the local action of round [k] is done. *)
Lemma sn_loc : forall p k b, sn_inv p k b ->
  (p + 2 ^ k < n -> forall i, i < nelems -> fst (ph_loc (sn_ph p k) b) i = sv k p i) /\
  (rb = false -> fst (ph_loc (sn_ph p k) b) = fst b) /\
  snd (ph_loc (sn_ph p k) b) = snd b.
Proof.
  intros p k b (I1 & I2 & I3). cbn [sn_ph ph_loc]. unfold sv. split; [|split].
  - intros Hs i Hi. destruct (Nat.ltb_spec (p + 2 ^ k) n) as [_|]; [|lia]. rewrite andb_true_r.
    destruct rb eqn:Erb; cbn [andb]; [|exact (I3 (or_intror eq_refl) i Hi)].
    destruct (Nat.eqb_spec k 0) as [->|Hk]; cbn [negb]; [exact (I3 (or_introl eq_refl) i Hi)|].
    cbn [sn_shuffle fst]. rewrite (bwrite_in _ _ _ _ (src 0 0)) by (rewrite bread_length; lia).
    rewrite nth_bread by lia. rewrite Nat.sub_0_r. cbn [Nat.add]. exact (I1 i Hi).
  - intros E. rewrite E. reflexivity.
  - destruct (rb && _ && _); reflexivity.
Qed.

Lemma sn_annotated : annotated g sn_inv sn_good.
Proof.
  split.
  - intros p Hp. cbn [g scan_with pg_init sn_init]. unfold sn_inv. cbn [fst snd].
    assert (E : forall b i, i < nelems -> bwrite b 0 (bread (src p) 0 nelems) i = src p i).
    { intros b i Hi. rewrite (bwrite_in _ _ _ _ (src 0 0)) by (rewrite bread_length; lia).
      rewrite nth_bread by lia. f_equal. lia. }
    split; [|split].
    + intros i Hi. apply E. exact Hi.
    + intros i Hi. apply bwrite_out. rewrite bread_length. lia.
    + intros _ i Hi. apply E. exact Hi.
  - intros p k h Hp Hk. cbn [g scan_with pg_np] in Hp. rewrite sn_nth in Hk by exact Hp.
    destruct (sn_act p k) eqn:Ea; [injection Hk as <-|discriminate].
    assert (Hfst : forall l b, within sn_inv sn_good p k (sn_ph p k) l b ->
       exists b0, sn_inv p k b0 /\ fst b = fst (ph_loc (sn_ph p k) b0)).
    { intros l b Hw. destruct (2 ^ k <=? p) eqn:E.
      - eapply within_one in Hw; [|cbn [sn_ph ph_rcv]; rewrite E; reflexivity].
        destruct Hw as (b0 & H0 & [(_ & ->)|(_ & v & _ & ->)]); exists b0; split; (exact H0 || reflexivity).
      - eapply within_none in Hw; [|cbn [sn_ph ph_rcv]; rewrite E; reflexivity].
        destruct Hw as (_ & b0 & H0 & ->). exists b0. split; [exact H0|reflexivity]. }
    split.
    + intros l b t q rd Hw Hin. cbn [sn_ph ph_snd] in Hin. destruct (Nat.ltb_spec (p + 2 ^ k) n) as [Hl|]; [|destruct Hin].
      destruct Hin as [E|[]]. injection E as <- <- <-. destruct (Hfst l b Hw) as (b0 & H0 & Ef).
      unfold sn_good. apply bread_map. rewrite Ef. intros i Hi. apply (proj1 (sn_loc p k b0 H0)); assumption.
    + intros b Hw. destruct (Nat.leb_spec (2 ^ k) p) as [Hl|Hl].
      * eapply within_one in Hw; [|cbn [sn_ph ph_rcv]; rewrite (proj2 (Nat.leb_le _ _) Hl); reflexivity].
        destruct Hw as (b0 & H0 & [(El & _)|(_ & v & Hv & ->)]); [discriminate|].
        destruct (sn_loc p k b0 H0) as (L1 & L2 & L3). pose proof H0 as (I1 & I2 & I3).
        rewrite L3. cbn [fst snd]. unfold sn_good in Hv.
        assert (Hvl : length (firstn nelems v) = nelems) by (rewrite firstn_length, Hv, map_length, seq_length; lia).
        split; [|split].
        -- intros i Hi. cbn [snd]. rewrite (breduce_in op 1 Nat.lt_0_1 _ _ _ _ (src 0 0)) by lia.
           rewrite I1 by exact Hi. cbn [rv]. rewrite (proj2 (Nat.leb_le _ _) Hl). f_equal.
           rewrite Nat.sub_0_r, firstn_all2 by (rewrite Hv, map_length, seq_length; lia).
           rewrite Hv, nth_map_seq by exact Hi. reflexivity.
        -- intros i Hi. cbn [snd]. rewrite (breduce_out op 1 Nat.lt_0_1) by lia. apply I2. exact Hi.
        -- intros [E|E]; [discriminate|]. cbn [fst]. rewrite (L2 E). apply I3. right. exact E.
      * eapply within_none in Hw; [|cbn [sn_ph ph_rcv]; destruct (Nat.leb_spec (2 ^ k) p); [lia|reflexivity]].
        destruct Hw as (_ & b0 & H0 & ->). destruct (sn_loc p k b0 H0) as (L1 & L2 & L3). pose proof H0 as (I1 & I2 & I3).
        unfold sn_inv. rewrite L3. split; [|split].
        -- intros i Hi. cbn [rv]. destruct (Nat.leb_spec (2 ^ k) p); [lia|]. apply I1. exact Hi.
        -- exact I2.
        -- intros [E|E]; [discriminate|]. rewrite (L2 E). apply I3. right. exact E.
Qed.

(** After the last round of a rank nothing changes any more. *)
Lemma sn_len_act : forall p k, p < n -> k < length (pg_ph g p) <-> sn_act p k = true.
Proof.
  intros p k Hp. rewrite <- nth_error_Some, sn_nth by exact Hp. destruct (sn_act p k); split; congruence.
Qed.
Lemma rv_stable : forall p k i, p < 2 ^ k -> forall j, rv (k + j) p i = rv k p i.
Proof.
  intros p k i Hk j. induction j as [|j IH]; [rewrite Nat.add_0_r; reflexivity|]. rewrite Nat.add_succ_r. cbn [rv].
  pose proof (Nat.pow_le_mono_r 2 k (k + j) ltac:(lia) ltac:(lia)).
  destruct (Nat.leb_spec (2 ^ (k + j)) p); [lia|exact IH].
Qed.
Lemma sn_final : forall p k i, p < n -> p < 2 ^ k -> rv (length (pg_ph g p)) p i = rv k p i.
Proof.
  intros p k i Hp Hk. set (m := length (pg_ph g p)).
  assert (Hm : p < 2 ^ m).
  { pose proof (proj1 (sn_len_act p m Hp)) as H1. pose proof (proj2 (sn_len_act p m Hp)) as H. fold m in H.
    destruct (le_lt_dec (2 ^ m) p) as [Hle|]; [|assumption]. unfold sn_act in H.
    rewrite (proj2 (Nat.leb_le _ _) Hle), orb_true_r in H. specialize (H eq_refl). lia. }
  destruct (le_lt_dec k m) as [H|H].
  - replace m with (k + (m - k)) by lia. apply rv_stable. exact Hk.
  - replace k with (m + (k - m)) by lia. symmetry. apply rv_stable. exact Hm.
Qed.

Theorem sn_done : forall j c p k, p < n -> p < 2 ^ k -> pexec g j c -> pdone (p_proc c p) ->
  (forall i, i < nelems -> snd (w_mem (p_proc c p)) i = rv k p i) /\
  (forall i, nelems <= i -> snd (w_mem (p_proc c p)) i = dst p i).
Proof.
  intros j c p k Hp Hk Hx Hd. destruct (phases_result g _ _ sn_annotated j c p Hx Hp Hd) as (R1 & R2 & _).
  split; [|exact R2]. intros i Hi. rewrite R1 by exact Hi. apply sn_final; assumption.
Qed.
End ScanProof.
