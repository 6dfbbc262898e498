(** The channels and flows of PISCES memory. *)
From Coq Require Import List NArith Bool Arith Lia Permutation.
From Verif Require Import MmModel.
Import ListNotations.
Open Scope N_scope.

Fixpoint total (l : list N) : N := match l with [] => 0 | x :: t => x + total t end.
Lemma total_app a b : total (a ++ b) = total a + total b.
Proof. induction a; simpl; lia. Qed.
Lemma total_repeat p k : total (repeat p k) = p * N.of_nat k.
Proof. induction k; simpl; lia. Qed.

(** The pieces of a flow: whole packets and then the rest. *)
Definition whole (p : N) (l : list N) : Prop :=
  exists k r, l = repeat p k ++ [r] /\ r <= p /\ (0 < total l -> 0 < r).
(** The sizes for which the arithmetic is right. *)
Definition good (p size : N) : Prop := size < p + 2 ^ 32.

Definition pend (f : nat -> creq) (e : ev) : list (nat * N) :=
  match e with
  | Cb id l => [(id, total l)]
  | Free _ => []
  | Data ch _ => [(c_id (f ch), c_total (f ch))]
  end.
Definition chan (e : ev) : list nat := match e with Cb _ _ => [] | Free ch => [ch] | Data ch _ => [ch] end.
Definition aflow (a : acc) : list (nat * N) := match a with AFlow id n => [(id, n)] | APkt _ => [] end.
Definition dsum (x : nat * list N) : nat * N := (fst x, total (snd x)).

Definition data_ok (p : N) (c : creq) (k : N) : Prop :=
  (exists j, c_pieces c = repeat p j ++ [k] /\ c_arrived c = p * N.of_nat j) /\
  0 < k /\ c_arrived c + k <= c_total c /\ k = N.min p (c_total c - c_arrived c) /\
  c_total c - (c_arrived c + k) < 2 ^ 32.
Definition ev_ok (p : N) (f : nat -> creq) (e : ev) : Prop :=
  match e with
  | Cb id l => whole p l
  | Free _ => True
  | Data ch k => data_ok p (f ch) k
  end.

(** [h]: channels held by the function that is being executed; [w]: requests held by it. *)
Record Inv (n : nat) (p : N) (h : list nat) (w : list (nat * N)) (s : pmem) : Prop := {
  i_subs : Permutation (subs s) (w ++ map dsum (done s) ++ flat_map (pend (chans s)) (evs s)
                                   ++ flat_map aflow (stalled s));
  i_chan : Permutation (h ++ avail s ++ flat_map chan (evs s)) (seq 0 n);
  i_stall : stalled s = [] \/ avail s = [];
  i_flow : Forall (fun a => exists id k, a = AFlow id k /\ good p k) (stalled s);
  i_ev : Forall (ev_ok p (chans s)) (evs s);
  i_done : Forall (fun x => whole p (snd x)) (done s) }.

Lemma chan_nodup n p h w s : Inv n p h w s -> NoDup (h ++ avail s ++ flat_map chan (evs s)).
Proof. intros I. apply (Permutation_NoDup (Permutation_sym (i_chan _ _ _ _ _ I))). apply seq_NoDup. Qed.

Lemma setc_same {A} (f : nat -> A) k v : setc f k v k = v.
Proof. unfold setc. rewrite Nat.eqb_refl. auto. Qed.
Lemma setc_other {A} (f : nat -> A) k v x : x <> k -> setc f k v x = f x.
Proof. unfold setc. intros H. apply Nat.eqb_neq in H. rewrite H. auto. Qed.
Lemma pend_setc f ch c l : ~ In ch (flat_map chan l) -> flat_map (pend (setc f ch c)) l = flat_map (pend f) l.
Proof.
  induction l as [|e t IH]; simpl; intros H; auto. rewrite IH by (rewrite in_app_iff in H; tauto). f_equal.
  destruct e; simpl; auto. simpl in H. rewrite setc_other by (intros ->; tauto). auto.
Qed.
Lemma ok_setc p f ch c l : ~ In ch (flat_map chan l) -> Forall (ev_ok p f) l -> Forall (ev_ok p (setc f ch c)) l.
Proof.
  induction 2 as [|e t He Ht IH]; constructor; simpl in H; rewrite in_app_iff in H.
  - destruct e; simpl in *; auto. rewrite setc_other by (intros ->; tauto). auto.
  - apply IH. tauto.
Qed.
Lemma flat_chan_app a b : flat_map chan (a ++ b) = flat_map chan a ++ flat_map chan b.
Proof. apply flat_map_app. Qed.

Lemma whole_one p n : n <= p -> whole p [n].
Proof. intros H. exists 0%nat, n. simpl. repeat split; auto. lia. Qed.

Ltac perm := 
  repeat (rewrite <- app_assoc || simpl);
  try reflexivity.

Lemma to_end {A} (x : A) a b d : Permutation (a ++ b ++ d ++ [x]) (x :: a ++ b ++ d).
Proof. rewrite !app_assoc. symmetry. apply Permutation_cons_append. Qed.
Lemma to_place {A} (x : A) a b d e : Permutation (x :: a ++ b ++ d ++ e) (a ++ b ++ (d ++ [x]) ++ e).
Proof.
  rewrite <- !app_assoc. simpl. rewrite (app_assoc a), (app_assoc (a ++ b)), (app_assoc a), (app_assoc (a ++ b)).
  apply Permutation_middle.
Qed.
Lemma start_inv n p h w ch id size s : 0 < p -> good p size ->
  Inv n p (ch :: h) ((id, size) :: w) s -> Inv n p h w (start p ch id size s).
Proof.
  intros P G I. pose proof (chan_nodup _ _ _ _ _ I) as ND. destruct I as [S C T F E D].
  assert (NC : ~ In ch (flat_map chan (evs s))).
  { intros K. simpl in ND. inversion ND; subst. apply H1. rewrite !in_app_iff. auto. }
  unfold start. destruct (N.leb_spec size p).
  - constructor; simpl; auto.
    + rewrite S, flat_map_app. simpl. rewrite N.add_0_r. apply to_place.
    + rewrite <- C, flat_chan_app. simpl. apply to_end.
    + apply Forall_app. split; auto. repeat constructor. simpl. apply whole_one. auto.
  - constructor; simpl; auto.
    + rewrite S, flat_map_app. simpl. rewrite setc_same, pend_setc by auto. simpl. apply to_place.
    + rewrite <- C, flat_chan_app. simpl. apply to_end.
    + apply Forall_app. split; [apply ok_setc; auto|]. constructor; [|constructor]. simpl. rewrite setc_same.
      unfold data_ok. simpl. split; [exists 0%nat; simpl; split; auto; lia|]. unfold good in G. lia.
Qed.

Lemma flow_inv n p h w id size s : 0 < p -> good p size ->
  Inv n p h w s -> Inv n p h w (access_flow p id size s).
Proof.
  intros P G I. destruct I as [S C T F E D]. unfold access_flow.
  destruct (avail s) as [|ch t] eqn:A.
  - constructor; simpl; auto.
    + rewrite S, flat_map_app. simpl. rewrite !app_assoc. reflexivity.
    + apply Forall_app. split; auto. repeat constructor. eauto.
  - apply start_inv; auto. constructor; simpl; auto.
    + rewrite S. rewrite <- Permutation_cons_append. auto.
    + rewrite <- C. simpl. rewrite <- Permutation_middle. auto.
    + left. destruct T as [T|T]; auto. discriminate.
Qed.

Lemma free_inv n p g h w ch s : 0 < p ->
  Inv n p (ch :: h) w s -> Inv n p h w (channel_free p g ch s).
Proof.
  intros P I. destruct I as [S C T F E D]. unfold channel_free.
  destruct (stalled s) as [|a t] eqn:A.
  - constructor; simpl; auto.
    rewrite <- C. simpl. rewrite <- Permutation_middle. auto.
  - inversion F as [|? ? (id & k & -> & G) Ft]; subst. apply start_inv; auto. constructor; simpl; auto.
    + rewrite S. simpl. rewrite !app_assoc. rewrite <- Permutation_middle. reflexivity.
    + right. destruct T; [discriminate|auto].
Qed.

Lemma flows_inv n p r : forall h w s, 0 < p -> Forall (fun x => good p (snd x)) r ->
  Inv n p h w s -> Inv n p h w (fold_left (fun s x => access_flow p (fst x) (snd x) s) r s).
Proof.
  induction r as [|x t IH]; simpl; intros h w s P F I; auto.
  inversion F; subst. apply IH; auto. apply flow_inv; auto.
Qed.

Lemma callback_inv n p h w id l r s : 0 < p -> Forall (fun x => good p (snd x)) r -> whole p l ->
  Inv n p h ((id, total l) :: w) s -> Inv n p h w (callback p id l r s).
Proof.
  intros P G W I. destruct I as [S C T F E D]. unfold callback. apply flows_inv; auto.
  constructor; simpl; auto.
  - rewrite S, map_app. simpl. unfold dsum at 3. simpl.
    replace ((id, total l) :: w ++ map dsum (done s) ++ flat_map (pend (chans s)) (evs s) ++ flat_map aflow (stalled s))
        with (((id, total l) :: (w ++ map dsum (done s))) ++ flat_map (pend (chans s)) (evs s) ++ flat_map aflow (stalled s))
        by perm.
    rewrite Permutation_cons_append. perm.
  - apply Forall_app. auto.
Qed.

Lemma nth_split_perm {A} (l : list A) i e : nth_error l i = Some e ->
  l = firstn i l ++ e :: skipn (S i) l.
Proof.
  revert i. induction l as [|x t IH]; intros [|i] H; simpl in *; try discriminate.
  - congruence.
  - f_equal. auto.
Qed.
Lemma remove_perm {A} (l : list A) i e : nth_error l i = Some e ->
  Permutation l (e :: firstn i l ++ skipn (S i) l).
Proof. intros H. rewrite (nth_split_perm _ _ _ H) at 1. symmetry. apply Permutation_middle. Qed.

Definition removed (i : nat) (s : pmem) : pmem :=
  mkpmem (avail s) (stalled s) (chans s) (firstn i (evs s) ++ skipn (S i) (evs s)) (subs s) (done s).
Lemma removed_inv n p s i e : nth_error (evs s) i = Some e -> Inv n p [] [] s ->
  Inv n p (chan e) (pend (chans s) e) (removed i s) /\ ev_ok p (chans s) e.
Proof.
  intros H [S C T F E D]. pose proof (remove_perm _ _ _ H) as R. split.
  - constructor; simpl; auto.
    + rewrite S. simpl. rewrite (Permutation_flat_map _ R). simpl.
      rewrite !app_assoc. apply Permutation_app_tail. 
      rewrite <- !app_assoc. rewrite Permutation_app_swap_app. perm.
    + rewrite <- C. simpl. rewrite (Permutation_flat_map _ R). simpl. apply Permutation_app_swap_app.
    + apply (Permutation_Forall R) in E. inversion E; auto.
  - apply (Permutation_Forall R) in E. inversion E; auto.
Qed.

Lemma data_done p c k : data_ok p c k -> c_arrived c + k = c_total c ->
  whole p (c_pieces c) /\ total (c_pieces c) = c_total c.
Proof.
  intros ((j & Ej & Ea) & K & L & M & B) H.
  assert (total (c_pieces c) = c_total c).
  { rewrite Ej, total_app, total_repeat. simpl. lia. }
  split; auto. exists j, k. repeat split; auto. lia.
Qed.
Lemma data_next p c k : 0 < p < 2 ^ 31 -> data_ok p c k -> c_arrived c + k <> c_total c ->
  k = p /\ N.min p ((c_total c - (c_arrived c + k)) mod 2 ^ 32) = N.min p (c_total c - (c_arrived c + k)) /\
  data_ok p (mkcreq (c_id c) (c_total c) (c_arrived c + k) (c_pieces c ++ [N.min p (c_total c - (c_arrived c + k))]))
    (N.min p (c_total c - (c_arrived c + k))).
Proof.
  intros P ((j & Ej & Ea) & K & L & M & B) H. assert (k = p) by lia. subst k.
  split; auto. rewrite N.mod_small by auto. split; auto. unfold data_ok. simpl. split.
  - exists (S j). rewrite Ej. split; [|lia]. f_equal. 
    rewrite H0. clear. induction j; simpl; auto. f_equal. auto.
  - lia.
Qed.

(** The sizes of all flows that an operation asks for. *)
Definition op_flows (o : op) : list (nat * N) :=
  match o with Flow id n => [(id, n)] | Req _ _ => [] | Fire _ _ r => r end.
Definition flow_op (o : op) : Prop := match o with Req _ _ => False | _ => True end.

Definition fire (p g : N) (r : list (nat * N)) (e : ev) (s : pmem) : pmem :=
  match e with
  | Cb id l => callback p id l r s
  | Free ch => channel_free p g ch s
  | Data ch n => data_arrived p g r ch n s
  end.
Lemma step_fire p i g r s : step p (Fire i g r) s =
  match nth_error (evs s) i with Some e => Some (fire p g r e (removed i s)) | None => None end.
Proof. reflexivity. Qed.

Lemma step_inv n p o s s' : 0 < p < 2 ^ 31 -> flow_op o -> Forall (fun x => good p (snd x)) (op_flows o) ->
  Inv n p [] [] s -> step p o s = Some s' -> Inv n p [] [] s'.
Proof.
  intros P O G I H. destruct o as [id k|id k|i g r]; [simpl in *|contradiction|rewrite step_fire in H; simpl in O, G].
  - inversion H; subst. inversion G; subst. apply flow_inv; auto. lia.
  - destruct (nth_error (evs s) i) as [e|] eqn:E; [|discriminate].
    destruct (removed_inv _ _ _ _ _ E I) as (J & Oe). inversion H; subst. clear H.
    assert (P0 : 0 < p) by lia.
    destruct e as [id l|ch|ch k]; simpl in Oe, J |- *; unfold fire.
    + apply callback_inv; auto.
    + apply free_inv; auto.
    + unfold data_arrived. change (chans (removed i s)) with (chans s). set (c := chans s ch) in *.
      destruct (N.eqb_spec (c_arrived c + k) (c_total c)) as [Q|Q].
      * destruct (data_done _ _ _ Oe Q) as (W & Tt). apply free_inv; auto. apply callback_inv; auto.
        rewrite Tt. auto.
      * destruct (data_next _ _ _ P Oe Q) as (_ & -> & Ok).
        pose proof (chan_nodup _ _ _ _ _ J) as ND.
        assert (NC : ~ In ch (flat_map chan (evs (removed i s)))).
        { intros K. simpl in ND. inversion ND; subst. apply H1. rewrite in_app_iff. auto. }
        destruct J as [S C T F Ev D]. constructor; cbn [subs avail stalled chans evs done app]; auto.
        -- rewrite S, flat_map_app, pend_setc by auto.
           replace (flat_map (pend (setc (chans (removed i s)) ch _)) [Data ch _]) with [(c_id c, c_total c)] by (simpl; rewrite setc_same; reflexivity).
           apply (to_place _ [] (map dsum (done s))).
        -- rewrite <- C, flat_chan_app. apply (to_end ch [] (avail s)).
        -- apply Forall_app. split; [apply ok_setc; auto|]. constructor; [|constructor]. simpl. rewrite setc_same. auto.
Qed.

Lemma pm0_inv n p : Inv n p [] [] (pm0 n).
Proof.
  constructor; simpl; auto. rewrite app_nil_r. symmetry. apply Permutation_rev.
Qed.

Lemma run_inv n p l : 0 < p < 2 ^ 31 -> Forall flow_op l ->
  Forall (fun x => good p (snd x)) (flat_map op_flows l) -> forall s s',
  Inv n p [] [] s -> run p l s = Some s' -> Inv n p [] [] s'.
Proof.
  intros P. induction l as [|o t IH]; simpl; intros O G s s' I H.
  - inversion H; subst; auto.
  - inversion O; subst. apply Forall_app in G. destruct G as [G1 G2].
    destruct (step p o s) as [s1|] eqn:E; [|discriminate]. apply (IH H3 G2 s1 s'); auto. eapply step_inv; eauto.
Qed.

(** How many events are executed for a flow. *)
Definition ceil (p x : N) : N := (x + (p - 1)) / p.
Definition cost (p size : N) : N := if size <=? p then 2 else ceil p size.
Definition costs (p : N) (l : list (nat * N)) : N := total (map (fun x => cost p (snd x)) l).
Definition ev_cost (p : N) (f : nat -> creq) (e : ev) : N :=
  match e with
  | Cb _ _ => 1 | Free _ => 1
  | Data ch k => 1 + ceil p (c_total (f ch) - c_arrived (f ch) - k)
  end.
Definition pot (p : N) (s : pmem) : N :=
  total (map (ev_cost p (chans s)) (evs s)) + costs p (flat_map aflow (stalled s)).

Lemma ceil_0 p : 0 < p -> ceil p 0 = 0.
Proof. intros P. unfold ceil. apply N.div_small. lia. Qed.
Lemma ceil_step p x : 0 < p -> 0 < x -> ceil p x = 1 + ceil p (x - N.min p x).
Proof.
  intros P X. unfold ceil. destruct (N.le_gt_cases x p).
  - rewrite N.min_r, N.sub_diag by auto. rewrite (N.div_small (0 + (p - 1))) by lia.
    replace (x + (p - 1)) with (1 * p + (x - 1)) by lia.
    rewrite N.div_add_l by lia. rewrite N.div_small by lia. lia.
  - rewrite N.min_l by lia. replace (x + (p - 1)) with (1 * p + (x - p + (p - 1))) by lia.
    rewrite N.div_add_l by lia. lia.
Qed.
Lemma costs_app p a b : costs p (a ++ b) = costs p a + costs p b.
Proof. unfold costs. rewrite map_app, total_app. auto. Qed.
Lemma ev_cost_setc p f ch c l : ~ In ch (flat_map chan l) ->
  map (ev_cost p (setc f ch c)) l = map (ev_cost p f) l.
Proof.
  induction l as [|e t IH]; simpl; intros H; auto. rewrite IH by (rewrite in_app_iff in H; tauto). f_equal.
  destruct e; simpl; auto. simpl in H. rewrite setc_other by (intros ->; tauto). auto.
Qed.
Lemma total_perm a b : Permutation a b -> total a = total b.
Proof. induction 1; simpl; lia. Qed.

Lemma start_pot n p h w ch id size s : 0 < p -> Inv n p (ch :: h) w s ->
  pot p (start p ch id size s) = pot p s + cost p size.
Proof.
  intros P I. pose proof (chan_nodup _ _ _ _ _ I) as ND.
  assert (NC : ~ In ch (flat_map chan (evs s))).
  { intros K. simpl in ND. inversion ND; subst. apply H1. rewrite !in_app_iff. auto. }
  unfold start, pot, cost. destruct (N.leb_spec size p); simpl.
  - rewrite map_app, total_app. simpl. lia.
  - rewrite map_app, total_app, ev_cost_setc by auto. cbn [map total ev_cost]. rewrite setc_same.
    cbn [c_total c_arrived]. rewrite (ceil_step p size) by lia. rewrite N.min_l by lia. rewrite N.sub_0_r. lia.
Qed.
Lemma flow_pot n p h w id size s : 0 < p -> Inv n p h w s ->
  pot p (access_flow p id size s) = pot p s + cost p size.
Proof.
  intros P I. unfold access_flow. destruct (avail s) as [|ch t] eqn:A.
  - unfold pot. simpl. rewrite flat_map_app, costs_app. unfold costs at 2. simpl. lia.
  - rewrite (start_pot n p h ((id, size) :: w)); auto.
    destruct I as [S C T F E D]. rewrite A in *. constructor; simpl; auto.
    + rewrite S. rewrite <- Permutation_cons_append. auto.
    + rewrite <- C. simpl. rewrite <- Permutation_middle. auto.
    + left. destruct T as [T|T]; auto. discriminate.
Qed.
Lemma free_pot n p g h w ch s : 0 < p -> Inv n p (ch :: h) w s ->
  pot p (channel_free p g ch s) = pot p s.
Proof.
  intros P I. unfold channel_free. destruct (stalled s) as [|a t] eqn:A.
  - unfold pot. simpl. rewrite A. simpl. auto.
  - pose proof (i_flow _ _ _ _ _ I) as F. rewrite A in F. inversion F as [|? ? (id & k & -> & G) Ft]; subst.
    rewrite (start_pot n p h ((id, k) :: w)); auto.
    + unfold pot. simpl. rewrite A. simpl. unfold costs. simpl. lia.
    + destruct I as [S C T _ E D]. rewrite A in *. constructor; simpl; auto.
      * rewrite S. simpl. rewrite !app_assoc. rewrite <- Permutation_middle. reflexivity.
      * right. destruct T; [discriminate|auto].
Qed.
Lemma flows_pot n p r : forall h w s, 0 < p -> Forall (fun x => good p (snd x)) r -> Inv n p h w s ->
  pot p (fold_left (fun s x => access_flow p (fst x) (snd x) s) r s) = pot p s + costs p r.
Proof.
  induction r as [|x t IH]; simpl; intros h w s P F I; [unfold costs; simpl; lia|].
  inversion F; subst. rewrite (IH h w); auto; [|apply flow_inv; auto].
  rewrite (flow_pot n p h w); auto. unfold costs. simpl. lia.
Qed.
Lemma callback_pot n p h w id l r s : 0 < p -> Forall (fun x => good p (snd x)) r -> whole p l ->
  Inv n p h ((id, total l) :: w) s -> pot p (callback p id l r s) = pot p s + costs p r.
Proof.
  intros P G W I. unfold callback. rewrite (flows_pot n p r h w); auto.
  pose proof (callback_inv n p h w id l [] s P ltac:(constructor) W I) as K. exact K.
Qed.

Lemma flows_subs p r : forall s,
  subs (fold_left (fun s x => access_flow p (fst x) (snd x) s) r s) = subs s ++ r.
Proof.
  induction r as [|x t IH]; simpl; intros s; [rewrite app_nil_r; auto|].
  rewrite IH. unfold access_flow, start. destruct x. simpl.
  destruct (avail s); simpl; [|destruct (_ <=? _); simpl]; rewrite <- app_assoc; auto.
Qed.
Lemma free_subs p g ch s : subs (channel_free p g ch s) = subs s.
Proof. unfold channel_free, start. destruct (stalled s) as [|[]]; simpl; auto; destruct (_ <=? _); auto. Qed.

(** What an operation does to the number of events to come. *)
Definition op_fires (o : op) : N := match o with Fire _ _ _ => 1 | _ => 0 end.
Lemma step_pot n p o s s' : 0 < p < 2 ^ 31 -> flow_op o -> Forall (fun x => good p (snd x)) (op_flows o) ->
  Inv n p [] [] s -> step p o s = Some s' ->
  exists r, subs s' = subs s ++ r /\ op_fires o + pot p s' = pot p s + costs p r.
Proof.
  intros P O G I H. assert (P0 : 0 < p) by lia.
  destruct o as [id k|id k|i g r]; [simpl in *|contradiction|rewrite step_fire in H; simpl in O, G].
  - inversion H; subst. exists [(id, k)]. split.
    + unfold access_flow, start. destruct (avail s); simpl; auto. destruct (_ <=? _); auto.
    + rewrite (flow_pot n p [] []); auto. unfold costs. simpl. lia.
  - destruct (nth_error (evs s) i) as [e|] eqn:E; [|discriminate].
    destruct (removed_inv _ _ _ _ _ E I) as (J & Oe). inversion H; subst. clear H.
    assert (R : pot p s = ev_cost p (chans s) e + pot p (removed i s)).
    { unfold pot. rewrite (total_perm _ _ (Permutation_map (ev_cost p (chans s)) (remove_perm _ _ _ E))).
      cbn [map total]. unfold removed. cbn [chans evs stalled]. lia. }
    rewrite R. destruct e as [id l|ch|ch k]; unfold fire; unfold op_fires.
    + exists r. split.
      * unfold callback. rewrite flows_subs. auto.
      * simpl in J. rewrite (callback_pot n p [] []); auto. simpl ev_cost. lia.
    + exists []. split.
      * rewrite free_subs, app_nil_r. auto.
      * simpl in J. rewrite (free_pot n p g [] []); auto. simpl ev_cost. unfold costs. simpl. lia.
    + simpl in Oe, J. unfold data_arrived. change (chans (removed i s)) with (chans s). cbn [ev_cost].
      set (c := chans s ch) in *.
      destruct (N.eqb_spec (c_arrived c + k) (c_total c)) as [Q|Q].
      * exists r. destruct (data_done _ _ _ Oe Q) as (W & Tt). rewrite <- Tt in J. split.
        -- rewrite free_subs. unfold callback. rewrite flows_subs. auto.
        -- rewrite (free_pot n p g [] []); auto.
           ++ rewrite (callback_pot n p [ch] []); auto.
              replace (c_total c - c_arrived c - k) with 0 by lia. rewrite ceil_0 by auto. lia.
           ++ apply callback_inv; auto.
      * exists []. split; [rewrite app_nil_r; auto|].
        destruct (data_next _ _ _ P Oe Q) as (_ & -> & Ok).
        pose proof (chan_nodup _ _ _ _ _ J) as ND.
        assert (NC : ~ In ch (flat_map chan (evs (removed i s)))).
        { intros K. simpl in ND. inversion ND; subst. apply H1. rewrite in_app_iff. auto. }
        unfold pot. cbn [chans evs stalled]. rewrite map_app, total_app, ev_cost_setc by auto.
        cbn [map total ev_cost]. rewrite setc_same. cbn [c_total c_arrived].
        destruct Oe as (_ & K & L & M & B).
        rewrite (ceil_step p (c_total c - c_arrived c - k)) by lia.
        replace (c_total c - (c_arrived c + k)) with (c_total c - c_arrived c - k) by lia.
        unfold costs at 3. simpl total. change (chans (removed i s)) with (chans s).
        change (stalled (removed i s)) with (stalled s). 
        replace (c_total c - (c_arrived c + k) - N.min p (c_total c - c_arrived c - k)) with
          (c_total c - c_arrived c - k - N.min p (c_total c - c_arrived c - k)) by lia. lia.
Qed.

Lemma run_pot n p l : 0 < p < 2 ^ 31 -> Forall flow_op l ->
  Forall (fun x => good p (snd x)) (flat_map op_flows l) -> forall s s',
  Inv n p [] [] s -> run p l s = Some s' ->
  exists r, subs s' = subs s ++ r /\ total (map op_fires l) + pot p s' = pot p s + costs p r.
Proof.
  intros P. induction l as [|o t IH]; simpl; intros O G s s' I H.
  - inversion H; subst. exists []. rewrite app_nil_r. split; auto. unfold costs; simpl. lia.
  - inversion O; subst. apply Forall_app in G. destruct G as [G1 G2].
    destruct (step p o s) as [s1|] eqn:E; [|discriminate].
    destruct (step_pot _ _ _ _ _ P H2 G1 I E) as (r1 & S1 & Q1).
    destruct (IH H3 G2 s1 s') as (r2 & S2 & Q2); auto; [eapply step_inv; eauto|].
    exists (r1 ++ r2). split; [rewrite S2, S1, app_assoc; auto|]. rewrite costs_app. lia.
Qed.
