From Coq Require Import List NArith Bool Arith Lia Permutation Sorted.
From Coq Require Import ZifyBool ZifyNat ZifyN.
From Verif Require Import EvModel EvSpec EvProof EvInv.
Import ListNotations.
Local Open Scope N_scope.

Lemma NoDup_map_filter {A B} (f : A -> B) (g : A -> bool) l :
  NoDup (map f l) -> NoDup (map f (filter g l)).
Proof.
  induction l as [|a l IH]; simpl; intros H; auto.
  inversion H as [|? ? Hn Hd]; subst. destruct (g a); simpl; auto.
  constructor; auto. intros Hin. apply Hn. apply in_map_iff in Hin as (x&Hx&Hin).
  apply filter_In in Hin as [Hin _]. apply in_map_iff. eauto.
Qed.

Lemma NoDup_map_flat_map {A B C} (f : B -> C) (g : A -> list B) (l : list A) :
  NoDup l -> (forall a, In a l -> NoDup (map f (g a))) ->
  (forall a a' x y, In a l -> In a' l -> In x (g a) -> In y (g a') -> f x = f y -> a = a') ->
  NoDup (map f (flat_map g l)).
Proof.
  induction l as [|a l IH]; simpl; intros Hn Hd Hs; [constructor|].
  inversion Hn as [|? ? Hna Hnl]; subst. rewrite map_app.
  assert (HIH : NoDup (map f (flat_map g l))) by (apply IH; eauto).
  revert HIH. specialize (Hd a (or_introl eq_refl)). 
  assert (Hdis : forall c, In c (map f (g a)) -> ~ In c (map f (flat_map g l))).
  { intros c Hc Hc'. apply in_map_iff in Hc as (x&Hx&Hxin). apply in_map_iff in Hc' as (y&Hy&Hyin).
    apply in_flat_map in Hyin as (a'&Ha'&Hyin). assert (a = a') by (eapply Hs; eauto; congruence).
    subst. auto. }
  revert Hdis Hd. generalize (map f (g a)) as u. generalize (map f (flat_map g l)) as v.
  intros v u. induction u as [|c u IHu]; simpl; intros Hdis Hd Hv; auto.
  inversion Hd; subst. constructor.
  - rewrite in_app_iff. intros [?|?]; auto. eapply Hdis; eauto.
  - apply IHu; auto.
Qed.

Lemma omin_le_l a b m : a = Some m -> exists k, omin a b = Some k /\ k <= m.
Proof. intros ->. destruct b; simpl; eexists; split; try reflexivity; lia. Qed.
Lemma omin_le_r a b m : b = Some m -> exists k, omin a b = Some k /\ k <= m.
Proof. intros ->. destruct a; simpl; eexists; split; try reflexivity; lia. Qed.
Lemma omin_ge a b k lb : (forall m, a = Some m -> lb <= m) -> (forall m, b = Some m -> lb <= m) ->
  omin a b = Some k -> lb <= k.
Proof.
  destruct a as [x|], b as [y|]; simpl; intros Ha Hb H; try discriminate; injection H as <-; auto.
  specialize (Ha x eq_refl). specialize (Hb y eq_refl). lia.
Qed.
Lemma omin_list_le l a m : In a l -> a = Some m -> exists k, omin_list l = Some k /\ k <= m.
Proof.
  induction l as [|b l IH]; simpl; intros Hin Ha; [contradiction|].
  destruct Hin as [->|Hin]; [now apply omin_le_l|].
  destruct (IH Hin Ha) as (k&Hk&Hle). destruct (omin_le_r b _ _ Hk) as (k'&Hk'&?).
  exists k'. split; auto. lia.
Qed.
Lemma omin_list_ge l lb : (forall a m, In a l -> a = Some m -> lb <= m) ->
  forall k, omin_list l = Some k -> lb <= k.
Proof.
  induction l as [|b l IH]; simpl; intros H k Hk; [discriminate|].
  eapply omin_ge; [| |exact Hk]; eauto.
Qed.
Lemma omin_None a b : omin a b = None -> a = None /\ b = None.
Proof. destruct a, b; simpl; intros; try discriminate; auto. Qed.
Lemma omin_list_None l : omin_list l = None -> forall a, In a l -> a = None.
Proof.
  induction l as [|b l IH]; simpl; intros H a Ha; [contradiction|].
  apply omin_None in H as [H1 H2]. destruct Ha as [<-|?]; auto.
Qed.

Section Sync.
Context {S P : Type}.
Variable M : machine S P.
Variable own : N -> nat.
Variable n : nat.
Hypothesis Hown : forall c, (own c < n)%nat.
Hypothesis Hlinks : own_links M.

Notation event := (event P).
Notation wstate := (wstate S P).
Notation PInv := (PInv M own n).

Definition sched_all (es : list event) (s : wstate) : wstate := fold_left (fun x e => schedule e x) es s.

Lemma sched_all_fields es : forall s : wstate,
  let s' := sched_all es s in
  w_now s' = w_now s /\ w_minipc s' = w_minipc s /\ w_stopped s' = w_stopped s /\
  w_comp s' = w_comp s /\ w_seq s' = w_seq s /\ w_out s' = w_out s /\ w_log s' = w_log s.
Proof.
  induction es as [|e es IH]; intros s; simpl; [auto 10|].
  specialize (IH (schedule e s)). simpl in IH. exact IH.
Qed.

Lemma sched_all_queue es : forall s : wstate,
  qsorted (w_queue s) -> NoDup (map ls es) ->
  (forall e x, In e es -> In x (w_queue s) -> ls x <> ls e) ->
  (forall e, In e es -> w_now s <= e_time e) ->
  w_past s = false -> w_lost s = false ->
  let s' := sched_all es s in
  qsorted (w_queue s') /\ (forall x, In x (w_queue s') <-> In x (w_queue s) \/ In x es) /\
  w_past s' = false /\ w_lost s' = false.
Proof.
  induction es as [|e es IH]; intros s Hs Hn Hsep Hnow Hp Hl; simpl.
  - split; auto. split; [|auto]. intuition.
  - inversion Hn as [|? ? Hne Hnd]; subst.
    assert (Hc : qclash e (w_queue s) = false).
    { apply qclash_false. intros x Hx Hk. apply (Hsep e x); simpl; auto. now apply key_ls. }
    specialize (IH (schedule e s)). simpl in IH.
    destruct IH as (H1&H2&H3&H4).
    + now apply qinsert_sorted.
    + auto.
    + intros e' x He' Hx. apply qinsert_In_1 in Hx as [->|Hx].
      * intros Heq. apply Hne. rewrite Heq. now apply in_map.
      * apply Hsep; simpl; auto.
    + intros; apply Hnow; simpl; auto.
    + rewrite Hp. simpl. apply N.ltb_ge. apply Hnow; simpl; auto.
    + now rewrite Hl, Hc.
    + repeat split; auto.
      * intros Hx. apply H2 in Hx as [Hx|Hx]; auto. apply qinsert_In_1 in Hx as [->|?]; auto.
      * intros Hx. apply H2. rewrite qinsert_In by auto. intuition.
Qed.

Lemma inbox_In sys w e : In e (inbox M own n sys w) <->
  own (m_dst M (e_link e)) = w /\ exists w', (w' < n)%nat /\ In e (w_out (sys w')).
Proof.
  unfold inbox. rewrite filter_In, in_flat_map, Nat.eqb_eq. split.
  - intros [(w'&Hw'&Hin) H]. apply in_seq in Hw'. split; auto. exists w'. split; [lia|auto].
  - intros [H (w'&Hw'&Hin)]. split; auto. exists w'. split; auto. apply in_seq. lia.
Qed.

Definition quiet h (sys : nat -> wstate) := forall w, (w < n)%nat -> wstep M own h (sys w) = None.

Lemma quiet_after lb h sys w e : PInv lb h sys -> quiet h sys -> (w < n)%nat ->
  In e (w_queue (sys w)) -> before (e_time e) h = false.
Proof.
  intros HI Hq Hw Hin. specialize (Hq w Hw). unfold wstep in Hq.
  pose proof (pi_sorted _ _ _ _ _ _ HI w Hw) as Hs.
  destruct (w_queue (sys w)) as [|x r] eqn:E; [contradiction|].
  destruct (before (e_time x) h) eqn:Eb; [discriminate|].
  pose proof (sorted_min_time _ _ _ Hs Hin) as Hle.
  unfold before in *. destruct h; [|discriminate]. lia.
Qed.

Lemma deliver_spec lb h sys w :
  PInv lb h sys -> (w < n)%nat -> h <> None ->
  let s' := deliver M own n sys w in
  qsorted (w_queue s') /\
  (forall x, In x (w_queue s') <-> In x (w_queue (sys w)) \/ In x (inbox M own n sys w)) /\
  w_past s' = false /\ w_lost s' = false /\
  w_now s' = w_now (sys w) /\ w_comp s' = w_comp (sys w) /\ w_seq s' = w_seq (sys w) /\
  w_out s' = [] /\ w_log s' = w_log (sys w) /\ w_stopped s' = w_stopped (sys w).
Proof.
  intros HI Hw Hh s'. subst s'. unfold deliver.
  match goal with |- context [fold_left _ _ ?x] => set (s0 := x) end.
  change (fold_left (fun x e => schedule e x) (inbox M own n sys w) s0) with (sched_all (inbox M own n sys w) s0).
  destruct (sched_all_queue (inbox M own n sys w) s0) as (H1&H2&H3&H4); simpl.
  - now apply (pi_sorted _ _ _ _ _ _ HI).
  - unfold inbox. apply NoDup_map_filter. apply NoDup_map_flat_map.
    + apply seq_NoDup.
    + intros a Ha. apply in_seq in Ha. apply (pi_nodup _ _ _ _ _ _ HI). lia.
    + intros a a' x y Ha Ha' Hx Hy Heq. apply in_seq in Ha, Ha'.
      destruct (pi_out _ _ _ _ _ _ HI a x) as (_&Hx1&_); [lia|auto|].
      destruct (pi_out _ _ _ _ _ _ HI a' y) as (_&Hy1&_); [lia|auto|].
      unfold ls in Heq. injection Heq as He _. rewrite He in Hx1. congruence.
  - intros e x He Hx. apply inbox_In in He as (Hd&w'&Hw'&He).
    eapply (pi_sep _ _ _ _ _ _ HI w' w); eauto.
  - intros e He. apply inbox_In in He as (Hd&w'&Hw'&He).
    destruct (pi_out _ _ _ _ _ _ HI _ _ Hw' He) as (Hb&_).
    pose proof (pi_now _ _ _ _ _ _ HI w Hw) as Hnw. unfold before in *. destruct h; [lia|congruence].
  - now apply (pi_flags _ _ _ _ _ _ HI).
  - now apply (pi_flags _ _ _ _ _ _ HI).
  - destruct (sched_all_fields (inbox M own n sys w) s0) as (F1&F2&F3&F4&F5&F6&F7).
    rewrite F1, F3, F4, F5, F6, F7. simpl. auto 12.
Qed.

Lemma vote_queue (s : wstate) e r : w_queue s = e :: r -> exists k, vote s = Some k /\ k <= e_time e.
Proof. intros H. unfold vote. rewrite H. apply omin_le_r with (m := e_time e). auto. Qed.

Lemma vote_ipc (s : wstate) m : w_minipc s = Some m -> exists k, vote s = Some k /\ k <= m.
Proof.
  intros H. unfold vote. destruct (w_queue s); [exists m; split; auto; lia|]. now apply omin_le_l.
Qed.

Lemma votes_bound lb h sys lb' : PInv lb h sys ->
  omin_list (map (fun w => vote (sys w)) (seq 0 n)) = Some lb' ->
  lb <= lb' /\
  (forall w e, (w < n)%nat -> In e (w_queue (sys w)) \/ In e (w_out (sys w)) -> lb' <= e_time e).
Proof.
  intros HI Hv. split.
  - eapply omin_list_ge; [|exact Hv]. intros a m Ha Hm. apply in_map_iff in Ha as (w&<-&Hw).
    apply in_seq in Hw. unfold vote in Hm. destruct (w_queue (sys w)) as [|e r] eqn:E.
    + eapply (pi_ipc _ _ _ _ _ _ HI w); [lia|eauto].
    + eapply omin_ge; [| |exact Hm].
      * intros. eapply (pi_ipc _ _ _ _ _ _ HI w); [lia|eauto].
      * intros ? H. injection H as <-. destruct (pi_q _ _ _ _ _ _ HI w e) as (?&_); [lia|rewrite E; simpl; auto|auto].
  - intros w e Hw He.
    assert (Hk : exists k, vote (sys w) = Some k /\ k <= e_time e).
    { destruct He as [He|He].
      - pose proof (pi_sorted _ _ _ _ _ _ HI w Hw) as Hs.
        destruct (w_queue (sys w)) as [|x r] eqn:E; [contradiction|].
        destruct (vote_queue _ _ _ E) as (k&Hk&?). exists k. split; auto.
        pose proof (sorted_min_time _ _ _ Hs He). lia.
      - destruct (pi_out _ _ _ _ _ _ HI w e Hw He) as (_&_&_&_&_&m&Hm&?).
        destruct (vote_ipc _ _ Hm) as (k&Hk&?). exists k. split; auto. lia. }
    destruct Hk as (k&Hk&?).
    destruct (omin_list_le (map (fun w => vote (sys w)) (seq 0 n)) (vote (sys w)) k) as (k'&Hk'&?); auto.
    { apply in_map_iff. exists w. split; auto. apply in_seq. lia. }
    rewrite Hv in Hk'. injection Hk' as <-. lia.
Qed.

Lemma sync_PInv lb L sys lb' :
  PInv lb (Some (lb + L)) sys -> 0 < L ->
  omin_list (map (fun w => vote (sys w)) (seq 0 n)) = Some lb' ->
  PInv lb' (Some (lb' + L)) (fun w => forget_ipc (deliver M own n sys w)).
Proof.
  intros HI HL Hv. destruct (votes_bound _ _ _ _ HI Hv) as [Hlb Hbd].
  assert (Hsome : Some (lb + L) <> None) by discriminate.
  assert (Hseq : forall l, seqof M own (fun w => forget_ipc (deliver M own n sys w)) l = seqof M own sys l).
  { intros l. unfold seqof. simpl.
    destruct (deliver_spec _ _ _ (own (m_src M l)) HI (Hown _) Hsome) as (_&_&_&_&_&_&Hs&_).
    now rewrite Hs. }
  constructor.
  - intros w Hw. simpl. destruct (deliver_spec _ _ _ w HI Hw Hsome) as (?&_); auto.
  - intros w e Hw He. simpl in *. rewrite Hseq.
    destruct (deliver_spec _ _ _ w HI Hw Hsome) as (_&Hin&_&_&Hn&_). rewrite Hn.
    apply Hin in He as [He|He].
    + destruct (pi_q _ _ _ _ _ _ HI _ _ Hw He) as (?&?&?&?&?).
      repeat split; auto; try lia. eapply (Hbd w); eauto.
    + apply inbox_In in He as (Hd&w'&Hw'&He).
      destruct (pi_out _ _ _ _ _ _ HI _ _ Hw' He) as (Hb&_&_&?&?&_).
      repeat split; auto; try lia.
      * eapply (Hbd w'); eauto.
      * pose proof (pi_now _ _ _ _ _ _ HI w Hw) as Hnw. unfold before in *. lia.
  - intros w Hw. simpl. destruct (deliver_spec _ _ _ w HI Hw Hsome) as (_&_&_&_&Hn&_). rewrite Hn.
    pose proof (pi_now _ _ _ _ _ _ HI w Hw) as Hnw. unfold before in *. lia.
  - intros w e Hw He. simpl in He.
    destruct (deliver_spec _ _ _ w HI Hw Hsome) as (_&_&_&_&_&_&_&Ho&_). rewrite Ho in He. contradiction.
  - intros w m Hw Hm. discriminate.
  - intros w Hw. simpl.
    destruct (deliver_spec _ _ _ w HI Hw Hsome) as (_&_&_&_&_&_&_&Ho&_). rewrite Ho. constructor.
  - intros w w2 e x Hw Hw2 He Hx. simpl in He.
    destruct (deliver_spec _ _ _ w HI Hw Hsome) as (_&_&_&_&_&_&_&Ho&_). rewrite Ho in He. contradiction.
  - intros w Hw. simpl. destruct (deliver_spec _ _ _ w HI Hw Hsome) as (_&_&?&?&_). auto.
Qed.

Lemma empty_PInv comp0 h : (forall t, h = Some t -> 0 < t) ->
  PInv 0 h (fun _ => init_w comp0).
Proof.
  intros Hh. constructor; simpl; intros; try contradiction; try discriminate; auto.
  - constructor.
  - destruct h as [t|]; simpl; auto. specialize (Hh t eq_refl). lia.
  - constructor.
Qed.

(** Boot: each worker performs the setup sends of its own components. *)
Lemma boot_PInv comp0 boot h :
  (forall t, h = Some t -> 0 < t) ->
  (forall l t d, remote M own l = true -> 0 <= t -> before (t + d + m_lat M l) h = false) ->
  Forall (fun s => remote M own (s_link s) = false) boot ->
  PInv 0 h (fun w => forget_ipc (boot_w M own comp0 boot w)) /\
  forall w, (w < n)%nat -> w_out (boot_w M own comp0 boot w) = [] /\
     w_minipc (boot_w M own comp0 boot w) = None /\ w_now (boot_w M own comp0 boot w) = 0.
Proof.
  intros Hh Hlook Hloc.
  (* process workers one after the other *)
  assert (Hgen : forall m, (m <= n)%nat ->
     PInv 0 h (fun w => if (w <? m)%nat then boot_w M own comp0 boot w else init_w comp0)).
  { induction m as [|m IH]; intros Hm.
    - eapply PInv_ext; [exact Hown| |apply empty_PInv; exact Hh]. intros w. reflexivity.
    - specialize (IH ltac:(lia)).
      destruct (do_sends_PInv M own n Hown 0 h Hlook
           (filter (fun s => Nat.eqb (own (m_src M (s_link s))) m) boot) _ m ltac:(lia) IH) as [HI _].
      + apply Forall_forall. intros s Hs. apply filter_In in Hs as [_ Hs]. now apply Nat.eqb_eq in Hs.
      + lia.
      + eapply PInv_ext; [exact Hown| |exact HI]. intros w. unfold EvSpec.sysupd. simpl.
        rewrite Nat.ltb_irrefl.
        destruct (Nat.eqb w m) eqn:E.
        * apply Nat.eqb_eq in E; subst w. replace (m <? Datatypes.S m)%nat with true by lia. reflexivity.
        * apply Nat.eqb_neq in E. destruct (w <? m)%nat eqn:E2; destruct (w <? Datatypes.S m)%nat eqn:E3; auto; lia. }
  assert (Hl : forall ss (s : wstate), Forall (fun x => remote M own (s_link x) = false) ss ->
      w_out (do_sends M own s ss) = w_out s /\ w_minipc (do_sends M own s ss) = w_minipc s /\
      w_now (do_sends M own s ss) = w_now s).
  { induction ss as [|x ss IH]; intros s Hf; simpl; auto. inversion Hf as [|? ? Hx Hf']; subst.
    destruct (IH (do_send M own s x) Hf') as (->&->&->). unfold do_send. rewrite Hx. auto. }
  assert (Hb : forall w, (w < n)%nat -> w_out (boot_w M own comp0 boot w) = [] /\
     w_minipc (boot_w M own comp0 boot w) = None /\ w_now (boot_w M own comp0 boot w) = 0).
  { intros w _. unfold boot_w. apply (Hl _ (init_w comp0)).
    rewrite Forall_forall in *. intros x Hx. apply filter_In in Hx as [Hx _]. now apply Hloc. }
  split; auto.
  specialize (Hgen n (le_n n)).
  set (sysb := fun w => if (w <? n)%nat then boot_w M own comp0 boot w else init_w comp0) in *.
  assert (Hsame : forall w, (w < n)%nat -> sysb w = boot_w M own comp0 boot w).
  { intros w Hw. unfold sysb. replace (w <? n)%nat with true by lia. auto. }
  assert (Hseq : forall l, seqof M own (fun w => forget_ipc (boot_w M own comp0 boot w)) l = seqof M own sysb l).
  { intros l. unfold seqof. rewrite Hsame by apply Hown. reflexivity. }
  constructor; simpl.
  - intros w Hw. rewrite <- Hsame by auto. now apply (pi_sorted _ _ _ _ _ _ Hgen).
  - intros w e Hw He. rewrite Hseq. rewrite <- Hsame in * by auto. now apply (pi_q _ _ _ _ _ _ Hgen).
  - intros w Hw. rewrite <- Hsame by auto. now apply (pi_now _ _ _ _ _ _ Hgen).
  - intros w e Hw He. destruct (Hb w Hw) as (Ho&_). rewrite Ho in He. contradiction.
  - intros; discriminate.
  - intros w Hw. destruct (Hb w Hw) as (->&_). constructor.
  - intros w w2 e x Hw Hw2 He Hx. destruct (Hb w Hw) as (Ho&_). rewrite Ho in He. contradiction.
  - intros w Hw. rewrite <- Hsame by auto. now apply (pi_flags _ _ _ _ _ _ Hgen).
Qed.

Lemma preach_PInv L comp0 boot :
  0 < L -> (forall l, remote M own l = true -> L <= m_lat M l) ->
  Forall (fun s => remote M own (s_link s) = false) boot ->
  forall lb sys, preach M own n L comp0 boot lb sys -> PInv lb (Some (lb + L)) sys.
Proof.
  intros HL Hlat Hloc lb sys Hr.
  assert (Hlook : forall lb l t d, remote M own l = true -> lb <= t -> before (t + d + m_lat M l) (Some (lb + L)) = false).
  { intros lb0 l t d Hrem Ht. specialize (Hlat l Hrem). simpl. lia. }
  induction Hr as [|lb sys w s' Hr IH Hw Hst|lb sys lb' Hr IH Hq Hv].
  - apply boot_PInv; auto. intros t Ht. injection Ht as <-. lia.
  - eapply wstep_PInv; eauto.
  - eapply sync_PInv; eauto.
Qed.

End Sync.
