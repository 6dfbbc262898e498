(** Small glue between the proof files and the property statements, and a concrete machine
    used in the examples. *)
From Coq Require Import List NArith Bool Arith Lia Permutation Sorted.
From Coq Require Import ZifyBool ZifyNat ZifyN.
From Verif Require Import EvModel EvSpec EvProof EvInv EvSync EvSerial EvPar EvStop.
Import ListNotations.
Local Open Scope N_scope.

(** Example machine (not from the code): component c owns link c to the other component
    (latency 5) and self link 2+c.  A payload p > 0 is forwarded with p-1. *)
Definition toy : machine N N := Machine
  (fun c s t l p => (s + 1,
     if (p =? 0) || (l <? 2) || (2 <=? c) then [] else [Send (2 + c) 1 (p - 1); Send c 0 0]))
  (fun l => if l =? 4294967295 then 0 else l mod 2)
  (fun l => if l =? 4294967295 then 0 else if l <? 2 then 1 - l else l mod 2)
  (fun l => if l <? 2 then 5 else 0).
Definition toy_own (c : N) : nat := if c =? 0 then 0%nat else 1%nat.
Definition toy_boot : list (send N) := [Send 3 4 3; Send 2 0 3].

Lemma history_unique : forall (S P : Type) (M : machine S P) fuel comp0 boot w hist,
  serial_run M fuel comp0 boot = Some w ->
  ordered M comp0 boot hist -> complete M comp0 boot hist -> history w = hist.
Proof.
  intros. eapply ordered_unique; eauto.
  - eapply serial_ordered; eauto.
  - eapply serial_complete; eauto.
Qed.

Lemma serial_once : forall (S P : Type) (M : machine S P) fuel comp0 boot w,
  serial_run M fuel comp0 boot = Some w ->
  NoDup (history w) /\ Permutation (history w) (caused M comp0 boot (history w)).
Proof. intros S P M fuel comp0 boot w H. destruct (serial_complete M fuel comp0 boot w H) as ((?&_)&?). auto. Qed.

Lemma until_once : forall (S P : Type) (M : machine S P) t fuel comp0 boot w,
  serial_run_until M fuel comp0 boot t = Some w ->
  exists hist, history w = hist ++ [stop_event t] /\ w_stopped w = true /\ NoDup hist /\
    ordered M comp0 boot hist /\
    (forall x, In x (caused M comp0 boot hist) -> e_time x < t -> In x hist) /\
    (forall x, In x hist -> In x (caused M comp0 boot hist) /\ e_time x <= t).
Proof.
  intros S P M t fuel comp0 boot w H. destruct (serial_until M t fuel comp0 boot w H) as (hist&H1&H2&H3&H4&H5).
  exists hist. repeat (split; auto).
  - intros x Hx Ht. apply H5. split; auto. left. exact Ht.
  - now apply H5.
  - apply H5 in H0 as [_ H0]. apply earlier_time in H0. exact H0.
Qed.

Lemma stop_collision :
  self_link_id 0 = 4294967295 /\
  exists (M : machine N N) w, serial_run_until M 10 (fun _ => 0) [Send (self_link_id 0) 7 1] 7 = Some w /\
    w_lost w = true /\ ~ In (Ev (Key 7 (self_link_id 0) 0) (Some 1)) (history w) /\
    In (Ev (Key 7 (self_link_id 0) 0) (Some 1)) (caused M (fun _ => 0) [Send (self_link_id 0) 7 1] []).
Proof.
  split; [reflexivity|]. exists toy. eexists. split; [vm_compute; reflexivity|].
  split; [reflexivity|]. split; [|simpl; auto]. intros H. vm_compute in H. destruct H as [H|[]]. discriminate.
Qed.

Lemma serial_time : forall (S P : Type) (M : machine S P) fuel comp0 boot w,
  serial_run M fuel comp0 boot = Some w ->
  StronglySorted (fun a b => e_time a <= e_time b) (history w) /\ w_past w = false /\
  w_lost w = false /\
  w_comp w = fst (replay M comp0 (fst (emit M 0 (fun _ => 0) boot)) (history w)).
Proof.
  intros S P M fuel comp0 boot w H. destruct (serial_monotone M fuel comp0 boot w H) as (H1&H2&H3).
  repeat (split; auto).
  apply serial_run_SInv in H as ((_&(es&Hf&_)&_)&_). unfold rinit in Hf. unfold history.
  destruct (emit M 0 (fun _ => 0) boot) as [sq es0] eqn:E. simpl in *.
  destruct (replay_fold M (rev (w_log w)) comp0 sq es0) as (s'&Hs). rewrite Hs in Hf.
  injection Hf as Hf _ _. auto.
Qed.

Lemma remote_iff {S P} (M : machine S P) own l : remote M own l = true <-> own (m_src M l) <> own (m_dst M l).
Proof. unfold remote. rewrite negb_true_iff, Nat.eqb_neq. tauto. Qed.
Lemma local_iff {S P} (M : machine S P) own l : remote M own l = false <-> own (m_src M l) = own (m_dst M l).
Proof. unfold remote. rewrite negb_false_iff, Nat.eqb_eq. tauto. Qed.

Lemma conservative : forall (S P : Type) (M : machine S P) own n L comp0 boot lb sys,
  (forall c, (own c < n)%nat) -> own_links M -> 0 < L ->
  (forall l, own (m_src M l) <> own (m_dst M l) -> L <= m_lat M l) ->
  Forall (fun s => own (m_src M (s_link s)) = own (m_dst M (s_link s))) boot ->
  preach M own n L comp0 boot lb sys ->
  forall w, (w < n)%nat ->
    (forall e, In e (w_queue (sys w)) -> w_now (sys w) <= e_time e) /\
    (forall w' e, (w' < n)%nat -> In e (w_out (sys w')) -> own (m_dst M (e_link e)) = w ->
        w_now (sys w) <= e_time e) /\
    w_past (sys w) = false /\ w_lost (sys w) = false.
Proof.
  intros S P M own n L comp0 boot lb sys Hown Hlinks HL Hlat Hboot Hr w Hw.
  assert (HI : PInv M own n lb (Some (lb + L)) sys).
  { apply (preach_PInv M own n Hown Hlinks L comp0 boot HL); auto.
    - intros l Hl. apply Hlat. now apply remote_iff.
    - eapply Forall_impl; [|exact Hboot]. intros s Hs. now apply local_iff. }
  split; [|split].
  - intros e He. destruct (pi_q _ _ _ _ _ _ HI w e Hw He) as (_&?&_). auto.
  - intros w' e Hw' He Hd. destruct (pi_out _ _ _ _ _ _ HI w' e Hw' He) as (Hb&_).
    pose proof (pi_now _ _ _ _ _ _ HI w Hw) as Hn. simpl in *. lia.
  - apply (pi_flags _ _ _ _ _ _ HI w Hw).
Qed.

Lemma par_serial : forall (S P : Type) (M : machine S P) own n L comp0 boot,
  (forall c, (own c < n)%nat) -> own_links M -> 0 < L ->
  (forall l, own (m_src M l) <> own (m_dst M l) -> L <= m_lat M l) ->
  Forall (fun s => own (m_src M (s_link s)) = own (m_dst M (s_link s))) boot ->
  ((exists f w, serial_run M f comp0 boot = Some w) <->
   (exists f sys, par_run M own f n L comp0 boot = Some sys)) /\
  (forall f w f' sys, serial_run M f comp0 boot = Some w ->
    par_run M own f' n L comp0 boot = Some sys ->
    forall c, w_comp w c = w_comp (sys (own c)) c /\
      seen_by M c (history w) = seen_by M c (history (sys (own c)))).
Proof.
  intros S P M own n L comp0 boot Hown Hlinks HL Hlat Hboot.
  assert (Hlat' : forall l, remote M own l = true -> L <= m_lat M l).
  { intros l Hl. apply Hlat. now apply remote_iff. }
  assert (Hboot' : Forall (fun s => remote M own (s_link s) = false) boot).
  { eapply Forall_impl; [|exact Hboot]. intros s Hs. now apply local_iff. }
  split; [split|].
  - intros (f&w&H). destruct (serial_par_run M own n Hown Hlinks L HL Hlat' comp0 boot f w Hboot' H) as (f'&sys&H'&_). eauto.
  - intros (f&sys&H). destruct (par_run_serial M own n Hown Hlinks L HL Hlat' comp0 boot f sys Hboot' H) as (f'&w&H'&_). eauto.
  - intros f w f' sys Hs Hp.
    destruct (par_run_serial M own n Hown Hlinks L HL Hlat' comp0 boot f' sys Hboot' Hp) as (k&w'&Hs'&Ha).
    assert (w = w') by (eapply loop_det; [exact Hs|exact Hs']). subst w'. exact Ha.
Qed.

Lemma toy_links : own_links toy.
Proof.
  intros c s t l p s' ss H. simpl in H. injection H as _ <-.
  destruct (p =? 0); simpl; [constructor|]. destruct (l <? 2); simpl; [constructor|].
  destruct (2 <=? c) eqn:E; [constructor|]. apply N.leb_gt in E.
  assert (c = 0 \/ c = 1) as [->| ->] by lia; repeat constructor.
Qed.

Lemma preach_loop {S P} (M : machine S P) own n L comp0 boot lb w f : (w < n)%nat -> forall sys s',
  preach M own n L comp0 boot lb sys -> loop M own f (Some (lb + L)) (sys w) = Some s' ->
  exists sys', preach M own n L comp0 boot lb sys' /\ sys' w = s' /\ forall x, x <> w -> sys' x = sys x.
Proof.
  intros Hw. induction f as [|f IH]; intros sys s' Hp Hl; [discriminate|]. simpl in Hl.
  destruct (wstep M own (Some (lb + L)) (sys w)) as [s1|] eqn:E.
  - destruct (IH (sysupd sys w s1) s') as (sys'&H1&H2&H3).
    + now apply preach_step. + now rewrite sysupd_same.
    + exists sys'. split; auto. split; auto. intros x Hx. rewrite H3 by auto. now apply sysupd_other.
  - injection Hl as <-. exists sys. auto.
Qed.

Lemma preach_init_at {S P} (M : machine S P) own n L comp0 boot : exists sys, preach M own n L comp0 boot 0 sys /\
  forall w, sys w = forget_ipc (boot_w M own comp0 boot w).
Proof. eexists. split; [constructor|]. reflexivity. Qed.

Lemma toy_reach : exists lb sys, preach toy toy_own 2 5 (fun _ => 0) toy_boot lb sys /\ lb = 5 /\ w_now (sys 1%nat) = 4.
Proof.
  destruct (preach_init_at toy toy_own 2 5 (fun _ => 0) toy_boot) as (sys0&H0&E0).
  assert (F0 : match loop toy toy_own 50 (Some (0 + 5)) (forget_ipc (boot_w toy toy_own (fun _ => 0) toy_boot 0)) with
    Some s => wstep toy toy_own (Some (0 + 5)) s = None /\ vote s = Some 5 | None => False end)
    by (vm_compute; auto).
  assert (F1 : match loop toy toy_own 50 (Some (0 + 5)) (forget_ipc (boot_w toy toy_own (fun _ => 0) toy_boot 1)) with
    Some s => wstep toy toy_own (Some (0 + 5)) s = None /\ vote s = Some 5 /\ w_now s = 4 | None => False end)
    by (vm_compute; auto).
  destruct (loop toy toy_own 50 (Some (0 + 5)) (forget_ipc (boot_w toy toy_own (fun _ => 0) toy_boot 0))) as [s0|] eqn:R0; [|contradiction].
  destruct (loop toy toy_own 50 (Some (0 + 5)) (forget_ipc (boot_w toy toy_own (fun _ => 0) toy_boot 1))) as [s1|] eqn:R1; [|contradiction].
  destruct F0 as [F0 V0]. destruct F1 as (F1&V1&N1).
  destruct (preach_loop toy toy_own 2 5 (fun _ => 0) toy_boot 0 0 50 ltac:(lia) sys0 s0 H0) as (sys1&H1&A1&B1).
  { rewrite E0. exact R0. }
  destruct (preach_loop toy toy_own 2 5 (fun _ => 0) toy_boot 0 1 50 ltac:(lia) sys1 s1 H1) as (sys2&H2&A2&B2).
  { rewrite B1, E0 by lia. exact R1. }
  assert (C0 : sys2 0%nat = s0) by (rewrite B2 by lia; auto).
  exists 5. eexists. split; [|split; [reflexivity|]].
  - eapply preach_sync; [exact H2| |].
    + intros w Hw. assert (w = 0 \/ w = 1)%nat as [->| ->] by lia; [rewrite C0|rewrite A2]; auto.
    + cbn [map seq omin_list]. rewrite C0, A2, V0, V1. reflexivity.
  - assert (Hf : forall es (s : wstate N N), w_now (fold_left (fun x e => schedule e x) es s) = w_now s).
    { induction es as [|e es IH]; intros s; simpl; auto. now rewrite IH. }
    unfold deliver. cbn [forget_ipc w_now]. rewrite Hf. cbn [w_now]. now rewrite A2.
Qed.

Lemma setup_lost : exists (M : machine N N) own boot w sys,
    own_links M /\ (forall c, (own c < 2)%nat) /\
    (forall l, own (m_src M l) <> own (m_dst M l) -> 5 <= m_lat M l) /\
    serial_run M 50 (fun _ => 0) boot = Some w /\
    par_run M own 50 2 5 (fun _ => 0) boot = Some sys /\
    length (seen_by M 1 (history w)) = 1%nat /\ seen_by M 1 (history (sys (own 1))) = [].
Proof.
  assert (F : match serial_run toy 50 (fun _ => 0) [Send 0 0 0], par_run toy toy_own 50 2 5 (fun _ => 0) [Send 0 0 0] with
    | Some w, Some sys => length (seen_by toy 1 (history w)) = 1%nat /\ seen_by toy 1 (history (sys (toy_own 1))) = []
    | _, _ => False end) by (vm_compute; auto).
  destruct (serial_run toy 50 (fun _ => 0) [Send 0 0 0]) as [w|] eqn:E1; [|contradiction].
  destruct (par_run toy toy_own 50 2 5 (fun _ => 0) [Send 0 0 0]) as [sys|] eqn:E2; [|contradiction].
  exists toy, toy_own, [Send 0 0 0], w, sys.
  split; [apply toy_links|]. split. { intros c. unfold toy_own. destruct (c =? 0); lia. }
  split. { intros l. simpl. unfold toy_own. destruct (l =? 4294967295); [congruence|].
    destruct (l <? 2) eqn:E; [lia|]. congruence. }
  tauto.
Qed.
