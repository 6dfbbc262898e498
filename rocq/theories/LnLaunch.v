(** The launcher invariant. *)
From Coq Require Import List Arith Bool ZArith Lia Permutation Sorted.
From Verif Require Import ListFacts LnModel LnSpec LnProof.
Import ListNotations.

(** ** Mappers meet [placed] *)

Lemma block_placed ppn nproc nodes m : NoDup nodes -> block_map ppn nproc nodes = Some m ->
  placed nproc ppn nodes m.
Proof.
  intros ND H. unfold block_map in H. destruct (validate_nproc _ _ _) as [np|] eqn:V; [|discriminate].
  apply validate_spec in V. destruct V as (-> & A & B & C). injection H as <-.
  assert (L: length (block_loop ppn nproc nodes []) = nproc).
  { rewrite block_loop_len by (simpl; lia). simpl. nia. }
  split; [exact L|]. split.
  - intros r Hr. rewrite <- L in Hr. apply nth_In with (d := 0) in Hr.
    apply block_loop_in in Hr. destruct Hr as [[]|Hr]. exact Hr.
  - intro n. apply block_loop_cnt; auto. intro y. simpl. lia.
Qed.

Lemma placed_perm nproc ppn nodes m m' : Permutation m m' -> placed nproc ppn nodes m ->
  placed nproc ppn nodes m'.
Proof.
  intros P (A & B & C). pose proof (Permutation_length P) as L. split; [congruence|]. split.
  - intros r Hr. assert (In (nth r m' 0) m) as K.
    { apply (Permutation_in _ (Permutation_sym P)). apply nth_In. lia. }
    apply In_nth with (d := 0) in K. destruct K as (i & Hi & <-). apply B. lia.
  - intro n. rewrite (Permutation_count_occ Nat.eq_dec) in P. rewrite <- P. apply C.
Qed.

Lemma placed_nodes nproc ppn n1 n2 m : (forall x, In x n1 -> In x n2) -> placed nproc ppn n1 m ->
  placed nproc ppn n2 m.
Proof. intros I (A & B & C). repeat split; auto. Qed.

Lemma random_placed draw smp ppn nproc nodes m : NoDup nodes ->
  random_map draw smp ppn nproc nodes = Some m -> placed nproc ppn nodes m.
Proof.
  intros ND H. unfold random_map in H. destruct (validate_nproc _ _ _) as [np|] eqn:V; [|discriminate].
  pose proof V as V'. apply validate_spec in V. destruct V as (-> & A & B & C). injection H as <-.
  pose proof (shuffle_perm draw nodes) as P.
  destruct smp.
  - rewrite random_loop_full by (rewrite (Permutation_length P); lia).
    apply placed_nodes with (n1 := shuffle draw nodes); [intro x; apply Permutation_in, P|].
    apply block_placed; [apply (Permutation_NoDup (Permutation_sym P)), ND|].
    unfold block_map. rewrite (Permutation_length P), V'. reflexivity.
  - rewrite random_loop_full by lia. apply placed_perm with (m := block_loop ppn nproc nodes []).
    + symmetry. apply shuffle_perm.
    + apply block_placed; [exact ND|]. unfold block_map. rewrite V'. reflexivity.
Qed.

Lemma cnt_nodup l n : NoDup l -> cnt l n <= 1.
Proof. intro H. apply (proj1 (NoDup_count_occ Nat.eq_dec l) H). Qed.

Lemma rr_placed ppn nproc nodes m : NoDup nodes -> nproc mod ppn = 0 ->
  rr_map ppn nproc nodes = Some m -> placed nproc ppn nodes m.
Proof.
  intros ND D H. unfold rr_map in H. destruct (validate_nproc _ _ _) as [np|] eqn:V; [|discriminate].
  apply validate_spec in V. destruct V as (-> & A & B & C). injection H as <-.
  assert (Q: nproc = ppn * (nproc / ppn)) by (rewrite (Nat.div_mod nproc ppn) at 1; lia).
  assert (L: length (firstn (nproc / ppn) nodes) = nproc / ppn) by (rewrite firstn_length; nia).
  split; [rewrite concat_repeat_len, L; lia|]. split.
  - intros r Hr. apply (firstn_incl (nproc / ppn)), (concat_repeat_in _ ppn), nth_In.
    rewrite concat_repeat_len, L. lia.
  - intro n. fold (cnt (concat (repeat (firstn (nproc / ppn) nodes) ppn)) n).
    rewrite concat_repeat_cnt. pose proof (cnt_nodup _ n (firstn_nodup (nproc / ppn) nodes ND)). nia.
Qed.

Lemma inside_incl m ppn nproc nodes p : stays_inside m ->
  NoDup nodes -> map_ranks m ppn nproc nodes = Some p -> incl p nodes.
Proof.
  intros S ND H x Hx. destruct m; simpl in *; try tauto.
  - apply block_placed in H; [|exact ND]. destruct H as (A & B & _).
    apply In_nth with (d := 0) in Hx. destruct Hx as (i & Hi & <-). apply B. lia.
  - unfold rr_map in H. destruct (validate_nproc _ _ _); [|discriminate]. injection H as <-.
    apply concat_repeat_in in Hx. apply (firstn_incl _ _ _ Hx).
  - apply random_placed in H; [|exact ND]. destruct H as (A & B & _).
    apply In_nth with (d := 0) in Hx. destruct Hx as (i & Hi & <-). apply B. lia.
Qed.

Lemma needed_bound nproc ppn : 0 < ppn -> 0 < nproc ->
  (nodes_needed nproc ppn - 1) * ppn < nproc /\ nproc <= nodes_needed nproc ppn * ppn.
Proof.
  intros A B. unfold nodes_needed.
  pose proof (Nat.div_mod nproc ppn ltac:(lia)). pose proof (Nat.mod_upper_bound nproc ppn ltac:(lia)).
  destruct (nproc mod ppn =? 0) eqn:E; [apply Nat.eqb_eq in E|apply Nat.eqb_neq in E]; nia.
Qed.

Lemma uses_all_incl r avail al p : sorted avail -> uses_all r ->
  request_allocation r avail = Some al ->
  map_ranks (rq_map r) (rq_ppn r) (rq_nproc r) al = Some p ->
  incl al p /\ incl p al.
Proof.
  intros S (U1 & U2 & U3) H M. unfold request_allocation in H.
  destruct (rq_ppn r) as [|pp] eqn:EP; [discriminate|]. set (ppn := Datatypes.S pp) in *.
  assert (P: 0 < ppn) by (unfold ppn; lia).
  assert (C: choosing (rq_alloc r)) by (destruct (rq_alloc r); simpl; auto).
  destruct (allocate_choosing _ _ _ _ S C H) as (Sa & I & L).
  destruct (needed_bound (rq_nproc r) ppn P U3) as [B1 B2].
  assert (ND: NoDup al) by (apply sorted_nodup, Sa).
  assert (blk: forall l, length l = length al -> incl l (block_loop ppn (rq_nproc r) l [])).
  { intros l E x Hx. apply block_loop_all; auto. simpl. rewrite E, L. lia. }
  assert (INS: stays_inside (rq_map r)) by (destruct (rq_map r); simpl; auto).
  split; [|apply (inside_incl _ _ _ _ _ INS ND M)].
  intros x Hx. destruct (rq_map r); simpl in M; try tauto.
  - unfold block_map in M. destruct (validate_nproc _ _ _) as [np|] eqn:V; [|discriminate].
    apply validate_spec in V. destruct V as (-> & _). injection M as <-. apply blk; auto.
  - unfold rr_map in M. destruct (validate_nproc _ _ _) as [np|] eqn:V; [|discriminate].
    apply validate_spec in V. destruct V as (-> & _). injection M as <-.
    unfold nodes_needed in L. rewrite U2 in L. cbn in L. rewrite Nat.add_0_r in L.
    rewrite firstn_all2 by (unfold ppn; simpl; lia). unfold ppn. simpl. apply in_or_app. auto.
  - unfold random_map in M. destruct (validate_nproc _ _ _) as [np|] eqn:V; [|discriminate].
    apply validate_spec in V. destruct V as (-> & _ & _ & V). injection M as <-.
    pose proof (shuffle_perm draw al) as PS. destruct smp.
    + rewrite random_loop_full by (rewrite (Permutation_length PS); lia).
      apply blk; [apply Permutation_length, PS|]. apply (Permutation_in _ (Permutation_sym PS)), Hx.
    + rewrite random_loop_full by lia.
      apply (Permutation_in _ (Permutation_sym (shuffle_perm draw _))). apply blk; auto.
Qed.

(** ** The invariant *)

Definition job := (nat * (list nat * list nat))%type.
Definition held (R : list job) : list nat := flat_map (fun j => fst (snd j)) R.

(** [full]: every launched job uses all its nodes. *)
Record inv (num : nat) (full : bool) (R : list job) (s : lstate) : Prop := {
  inv_map : mappings s = map (fun j => (fst j, snd (snd j))) R;
  inv_ids : NoDup (map fst R);
  inv_sorted : sorted (available s);
  inv_nodup : NoDup (held R ++ available s);
  inv_range : forall x, In x (held R ++ available s) -> x < num;
  inv_inside : forall j, In j R -> incl (snd (snd j)) (fst (snd j));
  inv_full : full = true ->
     Permutation (held R ++ available s) (seq 0 num) /\
     forall j, In j R -> incl (fst (snd j)) (snd (snd j));
  inv_hist : forall a al m, running (history s) a al m <-> In (a, (al, m)) R;
  inv_started : forall j, In j R -> In (fst j) (started_ids (history s));
  inv_hdup : NoDup (started_ids (history s)) }.

Lemma snoc_cases {A} (h x y : list A) (e s : A) :
  h ++ [e] = x ++ s :: y -> (y = [] /\ h = x /\ e = s) \/ exists y', y = y' ++ [e] /\ h = x ++ s :: y'.
Proof.
  destruct y as [|z y] using rev_ind.
  - intro E. apply app_inj_tail in E. destruct E. auto.
  - clear IHy. intro E. right. exists y.
    rewrite app_comm_cons, app_assoc in E. apply app_inj_tail in E. destruct E as [E ->]. auto.
Qed.

Lemma running_snoc_start h a al m b bl mb :
  running (h ++ [Started b bl mb]) a al m <-> running h a al m \/ (a, al, m) = (b, bl, mb).
Proof.
  split.
  - intros (x & y & E & N). apply snoc_cases in E. destruct E as [(-> & -> & E)|(y' & -> & ->)].
    + injection E as -> -> ->. auto.
    + left. exists x, y'. split; [reflexivity|]. intro K. apply N, in_or_app. auto.
  - intros [(x & y & -> & N)|E].
    + exists x, (y ++ [Started b bl mb]). rewrite <- app_assoc. split; [reflexivity|].
      intro K. apply in_app_or in K. destruct K as [K|[K|[]]]; [auto|discriminate].
    + injection E as -> -> ->. exists h, []. auto.
Qed.

Lemma running_snoc_stop h a al m b :
  running (h ++ [Stopped b]) a al m <-> running h a al m /\ a <> b.
Proof.
  split.
  - intros (x & y & E & N). apply snoc_cases in E. destruct E as [(_ & _ & E)|(y' & -> & ->)]; [discriminate|].
    split.
    + exists x, y'. split; [reflexivity|]. intro K. apply N, in_or_app. auto.
    + intros ->. apply N, in_or_app. simpl. auto.
  - intros [(x & y & -> & N) D]. exists x, (y ++ [Stopped b]). rewrite <- app_assoc. split; [reflexivity|].
    intro K. apply in_app_or in K. destruct K as [K|[K|[]]]; [auto|]. congruence.
Qed.

Lemma started_snoc h e : started_ids (h ++ [e]) =
  started_ids h ++ match e with Started a _ _ => [a] | Stopped _ => [] end.
Proof. unfold started_ids. rewrite flat_map_app. simpl. rewrite app_nil_r. reflexivity. Qed.

Lemma inv_init num full : inv num full [] (linit num).
Proof.
  constructor; simpl.
  - reflexivity.
  - constructor.
  - apply seq_sorted.
  - apply seq_NoDup.
  - intros x H. apply in_seq in H. lia.
  - intros j [].
  - intros _. split; [reflexivity|intros j []].
  - intros a al m. split; [|intros []]. intros (x & y & E & _). destruct x; discriminate.
  - intros j [].
  - constructor.
Qed.

Lemma launch_inv num full R s r s' : inv num full R s -> launch s r = Some s' ->
  stays_inside (rq_map r) -> (full = true -> uses_all r) ->
  ~ In (rq_aid r) (started_ids (history s)) ->
  exists j, fst j = rq_aid r /\ inv num full (j :: R) s' /\
    pending s' = pending s /\ active s' = active s.
Proof.
  intros I H Ins Full New. unfold launch in H.
  destruct (request_allocation r (available s)) as [al|] eqn:RA; [|discriminate].
  destruct (take_nodes al (available s)) as [av|] eqn:T; [|discriminate].
  destruct (map_ranks (rq_map r) (rq_ppn r) (rq_nproc r) al) as [m|] eqn:M; [|discriminate].
  injection H as <-. destruct (take_nodes_spec _ _ _ (inv_sorted _ _ _ _ I) T) as [Sav P].
  assert (Sal: sorted al).
  { unfold request_allocation in RA. destruct (rq_ppn r); [discriminate|].
    apply allocate_sorted in RA; [exact RA|apply I]. }
  assert (Q: Permutation (held R ++ available s) (held ((rq_aid r, (al, m)) :: R) ++ av)).
  { simpl. rewrite P. rewrite !app_assoc. apply Permutation_app_tail. apply Permutation_app_comm. }
  exists (rq_aid r, (al, m)). split; [reflexivity|]. split; [|auto]. constructor.
  - simpl. f_equal. apply I.
  - simpl. constructor; [|apply I]. intro K. apply in_map_iff in K. destruct K as (j & E & K).
    apply New. rewrite <- E. apply (inv_started _ _ _ _ I), K.
  - exact Sav.
  - apply (Permutation_NoDup Q), I.
  - intros x Hx. apply (inv_range _ _ _ _ I). apply (Permutation_in _ (Permutation_sym Q)), Hx.
  - intros j [<-|Hj]; [|apply I, Hj]. simpl.
    apply (inside_incl _ _ _ _ _ Ins (sorted_nodup _ Sal) M).
  - intro F. destruct (inv_full _ _ _ _ I F) as [F1 F2]. split.
    + rewrite <- Q. exact F1.
    + intros j [<-|Hj]; [|apply F2, Hj]. simpl.
      apply (uses_all_incl r (available s) al m (inv_sorted _ _ _ _ I) (Full F) RA M).
  - intros a al' m'. simpl history. rewrite running_snoc_start, (inv_hist _ _ _ _ I). simpl.
    split; intros [K|K]; auto; try (left; congruence); right; congruence.
  - intros j Hj. simpl history. rewrite started_snoc. apply in_or_app. destruct Hj as [<-|Hj].
    + right. simpl. auto.
    + left. apply I, Hj.
  - simpl history. rewrite started_snoc. apply nodup_app; [apply I|repeat constructor; simpl; tauto|].
    intros x Hx [K|[]]. subst. contradiction.
Qed.

Lemma lookup_split aid l m : lookup aid l = Some m ->
  exists a b, l = a ++ (aid, m) :: b /\ forget aid l = a ++ b /\ ~ In aid (map fst a).
Proof.
  induction l as [|[x y] l IH]; simpl; [discriminate|].
  destruct (x =? aid) eqn:E.
  - apply Nat.eqb_eq in E. subst. intro H. injection H as <-. exists [], l. simpl. auto.
  - apply Nat.eqb_neq in E. intro H. destruct (IH H) as (a & b & -> & -> & N).
    exists ((x, y) :: a), b. simpl. split; [reflexivity|]. split; [reflexivity|].
    intros [K|K]; [congruence|auto].
Qed.

Lemma cleanup_inv num full R s aid s' : inv num full R s -> cleanup s aid = Some s' ->
  exists R1 j R2, R = R1 ++ j :: R2 /\ fst j = aid /\ inv num full (R1 ++ R2) s' /\
    pending s' = pending s /\ active s' = active s.
Proof.
  intros I H. unfold cleanup in H. destruct (lookup aid (mappings s)) as [m|] eqn:L; [|discriminate].
  injection H as <-. destruct (lookup_split _ _ _ L) as (a & b & E & F & N).
  rewrite (inv_map _ _ _ _ I) in E.
  apply map_eq_app in E. destruct E as (R1 & R2' & -> & E1 & E2).
  destruct R2' as [|j R2]; [discriminate|]. simpl in E2. injection E2 as E2 E3 E4.
  exists R1, j, R2. split; [reflexivity|]. split; [exact E2|]. split; [|auto].
  destruct j as [ja [al jm]]. simpl in *. subst ja jm.
  pose proof (inv_nodup _ _ _ _ I) as ND. unfold held in ND. rewrite flat_map_app in ND. simpl in ND.
  assert (Q: Permutation (held (R1 ++ (aid, (al, m)) :: R2) ++ available s)
                         (al ++ held (R1 ++ R2) ++ available s)).
  { unfold held. rewrite !flat_map_app. simpl. rewrite !app_assoc. do 2 apply Permutation_app_tail.
    apply Permutation_app_comm. }
  assert (ND2: NoDup (al ++ held (R1 ++ R2) ++ available s)) by (apply (Permutation_NoDup Q), I).
  apply nodup_app_iff in ND2. destruct ND2 as (D1 & D2 & D3).
  apply nodup_app_iff in D2. destruct D2 as (D4 & D5 & D6).
  assert (IN: incl m al).
  { apply (inv_inside _ _ _ _ I (aid, (al, m))). apply in_or_app. simpl. auto. }
  constructor.
  - simpl. rewrite F, <- E1, <- E4, map_app. reflexivity.
  - pose proof (inv_ids _ _ _ _ I) as K. rewrite map_app in K |- *. simpl in K. apply NoDup_remove_1 in K. exact K.
  - simpl. apply sinsert_all_sorted, I.
  - simpl. apply nodup_app; [exact D4|apply sorted_nodup, sinsert_all_sorted, I|].
    intros x Hx K. apply sinsert_all_in in K. destruct K as [K|K].
    + apply (D3 x (IN x K)). apply in_or_app. auto.
    + apply (D6 x Hx K).
  - simpl. intros x Hx. apply (inv_range _ _ _ _ I). apply (Permutation_in _ (Permutation_sym Q)).
    apply in_app_or in Hx. apply in_or_app. destruct Hx as [Hx|Hx].
    + right. apply in_or_app. auto.
    + apply sinsert_all_in in Hx. destruct Hx as [Hx|Hx]; [left; apply IN, Hx|right; apply in_or_app; auto].
  - intros j Hj. apply (inv_inside _ _ _ _ I). apply in_app_or in Hj. apply in_or_app. simpl. tauto.
  - intro FT. destruct (inv_full _ _ _ _ I FT) as [F1 F2]. split.
    + simpl. rewrite <- F1, Q.
      rewrite app_assoc, (Permutation_app_comm al), <- app_assoc.
      apply Permutation_app_head.
      apply NoDup_Permutation.
      * apply sorted_nodup, sinsert_all_sorted, I.
      * apply nodup_app; auto. intros x Hx K. apply (D3 x Hx). apply in_or_app. auto.
      * intro x. rewrite sinsert_all_in, in_app_iff.
        assert (incl al m). { apply (F2 (aid, (al, m))). apply in_or_app. simpl. auto. }
        split; intros [K|K]; auto.
    + intros j Hj. apply F2. apply in_app_or in Hj. apply in_or_app. simpl. tauto.
  - intros a' al' m'. simpl history. rewrite running_snoc_stop, (inv_hist _ _ _ _ I).
    pose proof (inv_ids _ _ _ _ I) as K. rewrite map_app in K. simpl in K. apply NoDup_remove_2 in K.
    rewrite !in_app_iff. simpl. split.
    + intros [[G|[G|G]] D]; auto. congruence.
    + intros G. split; [tauto|]. intros ->. apply K.
      rewrite in_app_iff. destruct G as [G|G]; [left|right]; apply (in_map fst) in G; exact G.
  - intros j Hj. simpl history. rewrite started_snoc, app_nil_r.
    apply (inv_started _ _ _ _ I). apply in_app_or in Hj. apply in_or_app. simpl. tauto.
  - simpl history. rewrite started_snoc, app_nil_r. apply I.
Qed.

(** ** Runs *)

Lemma default_run num full : forall es R s s', inv num full R s ->
  lrun default_step s es = Some s' ->
  (forall r, In r (requested es) -> stays_inside (rq_map r)) ->
  (full = true -> forall r, In r (requested es) -> uses_all r) ->
  NoDup (started_ids (history s) ++ map rq_aid (requested es)) ->
  exists R', inv num full R' s'.
Proof.
  induction es as [|e es IH]; intros R s s' I H Ins Full ND; simpl in H.
  - injection H as <-. exists R. exact I.
  - destruct (default_step s e) as [s1|] eqn:E; [|discriminate].
    destruct e as [r|aid]; simpl in E, ND, Ins, Full.
    + apply nodup_app_iff in ND. destruct ND as (N1 & N2 & N3).
      destruct (launch_inv num full R s r s1 I E) as (j & Ej & I1 & _).
      * apply Ins. auto.
      * intro F. apply Full; auto.
      * intro K. apply (N3 _ K). simpl. auto.
      * apply (IH (j :: R) s1 s' I1 H); auto.
        assert (EH: started_ids (history s1) = started_ids (history s) ++ [rq_aid r]).
        { unfold launch in E. destruct (request_allocation r (available s)); [|discriminate].
          destruct (take_nodes l (available s)); [|discriminate].
          destruct (map_ranks _ _ _ _); [|discriminate]. injection E as <-.
          simpl. rewrite started_snoc. reflexivity. }
        rewrite EH, <- app_assoc. simpl. apply nodup_app_iff. auto.
    + destruct (cleanup_inv num full R s aid s1 I E) as (R1 & j & R2 & -> & Ej & I1 & _).
      apply (IH _ s1 s' I1 H); auto.
      assert (EH: started_ids (history s1) = started_ids (history s)).
      { unfold cleanup in E. destruct (lookup aid (mappings s)); [|discriminate]. injection E as <-.
        simpl. rewrite started_snoc, app_nil_r. reflexivity. }
      rewrite EH. exact ND.
Qed.

(** The exclusive launcher. *)
Record xinv (num : nat) (full : bool) (R : list job) (s : lstate) : Prop := {
  x_inv : inv num full R s;
  x_idle : active s = None -> R = [] /\ pending s = [];
  x_busy : forall a, active s = Some a -> map fst R = [a];
  x_ins : forall r, In r (pending s) -> stays_inside (rq_map r);
  x_full : full = true -> forall r, In r (pending s) -> uses_all r }.

Lemma launch_started s r s1 : launch s r = Some s1 ->
  started_ids (history s1) = started_ids (history s) ++ [rq_aid r].
Proof.
  unfold launch. destruct (request_allocation r (available s)); [|discriminate].
  destruct (take_nodes l (available s)); [|discriminate].
  destruct (map_ranks _ _ _ _); [|discriminate]. intro E. injection E as <-.
  simpl. rewrite started_snoc. reflexivity.
Qed.

Lemma cleanup_started s aid s1 : cleanup s aid = Some s1 ->
  started_ids (history s1) = started_ids (history s).
Proof.
  unfold cleanup. destruct (lookup aid (mappings s)); [|discriminate]. intro E. injection E as <-.
  simpl. rewrite started_snoc, app_nil_r. reflexivity.
Qed.

Lemma inv_same num full R s s' : available s' = available s -> mappings s' = mappings s ->
  history s' = history s -> inv num full R s -> inv num full R s'.
Proof.
  intros A M H I. destruct I. constructor; rewrite ?A, ?M, ?H; assumption.
Qed.

(** Launching from an idle state. *)
Lemma xlaunch num full s r s1 : inv num full [] s -> active s = None ->
  (forall q, In q (pending s) -> stays_inside (rq_map q)) ->
  (full = true -> forall q, In q (pending s) -> uses_all q) ->
  stays_inside (rq_map r) -> (full = true -> uses_all r) ->
  ~ In (rq_aid r) (started_ids (history s)) ->
  exclusive_launch s r = Some s1 ->
  exists R', xinv num full R' s1 /\ pending s1 = pending s /\
    started_ids (history s1) = started_ids (history s) ++ [rq_aid r].
Proof.
  intros I A Pi Pf Ins Full New H. unfold exclusive_launch in H. rewrite A in H.
  set (s0 := LSt (available s) (mappings s) (pending s) (Some (rq_aid r)) (history s)) in *.
  assert (I0: inv num full [] s0) by (apply (inv_same num full [] s); auto).
  destruct (launch_inv num full [] s0 r s1 I0 H Ins Full New) as (j & Ej & I1 & EP & EA).
  exists [j]. split; [|split; [exact EP|apply (launch_started s0 r s1 H)]].
  constructor.
  - exact I1.
  - rewrite EA. discriminate.
  - intros a Ha. rewrite EA in Ha. simpl in Ha. injection Ha as <-. simpl. rewrite Ej. reflexivity.
  - rewrite EP. exact Pi.
  - rewrite EP. exact Pf.
Qed.

Lemma exclusive_run num full : forall es R s s', xinv num full R s ->
  lrun exclusive_step s es = Some s' ->
  (forall r, In r (requested es) -> stays_inside (rq_map r)) ->
  (full = true -> forall r, In r (requested es) -> uses_all r) ->
  NoDup (started_ids (history s) ++ map rq_aid (pending s) ++ map rq_aid (requested es)) ->
  exists R', xinv num full R' s' /\
    started_ids (history s') ++ map rq_aid (pending s') =
    started_ids (history s) ++ map rq_aid (pending s) ++ map rq_aid (requested es).
Proof.
  induction es as [|e es IH]; intros R s s' X H Ins Full ND; simpl in H.
  - injection H as <-. exists R. split; [exact X|]. simpl. rewrite app_nil_r. reflexivity.
  - destruct (exclusive_step s e) as [s1|] eqn:E; [|discriminate].
    destruct e as [r|aid]; simpl in E, ND, Ins, Full |- *.
    + destruct (active s) as [a|] eqn:A.
      * unfold exclusive_launch in E. rewrite A in E. injection E as <-.
        edestruct (IH R) as (R' & X' & O); [|exact H|auto|auto| |].
        -- destruct X as [x1 x2 x3 x4 x5]. constructor; simpl.
           ++ apply (inv_same num full R s); auto.
           ++ discriminate.
           ++ intros b Hb. apply x3. congruence.
           ++ intros q Hq. apply in_app_or in Hq. destruct Hq as [Hq|[<-|[]]]; auto.
           ++ intros F q Hq. apply in_app_or in Hq. destruct Hq as [Hq|[<-|[]]]; auto.
        -- simpl. rewrite map_app, <- app_assoc. exact ND.
        -- exists R'. split; [exact X'|]. rewrite O. simpl. rewrite map_app, <- app_assoc. reflexivity.
      * destruct (x_idle _ _ _ _ X A) as [-> P0]. rewrite P0 in ND |- *. simpl in ND |- *.
        assert (New: ~ In (rq_aid r) (started_ids (history s))).
        { apply nodup_app_iff in ND. destruct ND as (_ & _ & N3). intro K. apply (N3 _ K). simpl. auto. }
        destruct (xlaunch num full s r s1 (x_inv _ _ _ _ X) A (x_ins _ _ _ _ X) (x_full _ _ _ _ X)
          ltac:(auto) ltac:(auto) New E) as (R1 & X1 & EP & EH).
        edestruct (IH R1) as (R' & X' & O); [exact X1|exact H|auto|auto| |].
        -- rewrite EH, EP, P0, <- app_assoc. exact ND.
        -- exists R'. split; [exact X'|]. rewrite O, EH, EP, P0, <- app_assoc. reflexivity.
    + destruct (cleanup s aid) as [s2|] eqn:C; [|discriminate].
      destruct (cleanup_inv num full R s aid s2 (x_inv _ _ _ _ X) C) as (R1 & j & R2 & -> & Ej & I2 & EP & EA).
      assert (NR: R1 ++ R2 = []).
      { destruct (active s) as [a|] eqn:A.
        - pose proof (x_busy _ _ _ _ X a A) as B. rewrite map_app in B. simpl in B.
          destruct R1 as [|? R1]; [destruct R2; [reflexivity|discriminate]|].
          simpl in B. injection B as _ B. destruct R1; discriminate.
        - destruct (x_idle _ _ _ _ X A) as [K _]. destruct R1; discriminate. }
      rewrite NR in I2. pose proof (cleanup_started _ _ _ C) as EH2.
      rewrite EP in E. destruct (pending s) as [|nx rest] eqn:Q.
      * injection E as <-.
        edestruct (IH []) as (R' & X' & O); [|exact H|auto|auto| |].
        -- constructor; simpl; try discriminate; try tauto.
           apply (inv_same num full [] s2); auto.
        -- simpl. rewrite EH2. exact ND.
        -- exists R'. split; [exact X'|]. rewrite O. simpl. rewrite EH2. reflexivity.
      * set (s0 := LSt (available s2) (mappings s2) rest None (history s2)) in *.
        assert (I0: inv num full [] s0) by (apply (inv_same num full [] s2); auto).
        assert (New: ~ In (rq_aid nx) (started_ids (history s0))).
        { simpl. rewrite EH2. apply nodup_app_iff in ND. destruct ND as (_ & _ & N3).
          intro K. apply (N3 _ K). simpl. auto. }
        destruct (xlaunch num full s0 nx s1 I0 eq_refl) as (R3 & X3 & EP3 & EH3); auto.
        -- simpl. intros q Hq. apply (x_ins _ _ _ _ X). rewrite Q. simpl. auto.
        -- simpl. intros F q Hq. apply (x_full _ _ _ _ X F). rewrite Q. simpl. auto.
        -- apply (x_ins _ _ _ _ X). rewrite Q. simpl. auto.
        -- intro F. apply (x_full _ _ _ _ X F). rewrite Q. simpl. auto.
        -- edestruct (IH R3) as (R' & X' & O); [exact X3|exact H|auto|auto| |].
           ++ rewrite EH3, EP3. simpl. rewrite EH2, <- app_assoc. exact ND.
           ++ exists R'. split; [exact X'|]. rewrite O, EH3, EP3. simpl. rewrite EH2, <- app_assoc. reflexivity.
Qed.

Lemma xinv_init num full : xinv num full [] (linit num).
Proof.
  constructor; simpl; try discriminate; try tauto; auto. apply inv_init.
Qed.
