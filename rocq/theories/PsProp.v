(* Properties C148 and C149: persistent requests, MPI_PROC_NULL. *)
From Coq Require Import List Bool Arith Lia.
Import ListNotations.
From Verif Require Import PsModel PsSpec PsProof.

Lemma run_sim : forall l s m, sim s m -> along tidy l m ->
  match run l s, mrun l m with
  | Some (s', os), Some (m', os') => os = os' /\ sim s' m' /\ ~ In OFail os
  | None, None => True
  | _, _ => False
  end.
Proof.
  induction l as [|x l IH]; intros s m S T; cbn [run mrun].
  - auto.
  - destruct T as [T1 T2]. pose proof (step_sim s m x S T1) as K.
    destruct (mstep x m) as [[m1 o]|]; [|rewrite K; exact I].
    destruct K as [s1 [-> [S1 NF]]]. specialize (IH s1 m1 S1 T2).
    destruct (run l s1) as [[s2 os]|], (mrun l m1) as [[m2 os']|]; auto.
    destruct IH as [-> [K1 K2]]. split; [reflexivity|]. split; [exact K1|].
    intros [E|I1]; [congruence|]. apply K2, I1.
Qed.

(* Programs that wait only for active requests and test no persistent request: every
   call returns when MPI lets it return, with MPI's status and handle, and the same
   transfers are given to the network: one for each start, with the arguments of the
   init call. *)
Theorem persistent_partial : forall l, along tidy l start_mpi ->
  match run l start_rank, mrun l start_mpi with
  | Some (s, os), Some (m, os') =>
      os = os' /\ ops s = given m /\ dead s = false /\ ~ In OFail os
  | None, None => True
  | _, _ => False
  end.
Proof.
  intros l T. pose proof (run_sim l _ _ start_sim T) as K.
  destruct (run l start_rank) as [[s os]|], (mrun l start_mpi) as [[m os']|]; auto.
  destruct K as [K1 [K2 K3]]. split; [exact K1|]. split; [apply sim_ops, K2|].
  split; [apply (sim_dead _ _ K2)|exact K3].
Qed.
Print Assumptions persistent_partial.

(* One persistent request used over and over: n starts, each finished and waited for,
   make n transfers with the arguments of the init call and report the n messages. *)
Fixpoint cycles (k : nat) (ns : list nat) : list act :=
  match ns with
  | [] => []
  | n :: r => [Start 0; Finish k n; Wait (Some 0)] ++ cycles (S k) r
  end.
Definition reports (a : args) (n : nat) : list out :=
  [ONone; ONone; OWait (match a_kind a with Rcv => From n | Snd => Unset end) (Some 0)].

Lemma run_app : forall l r s, run (l ++ r) s =
  match run l s with
  | None => None
  | Some (s1, os) => match run r s1 with None => None | Some (s2, os') => Some (s2, os ++ os') end
  end.
Proof.
  induction l as [|x l IH]; intros r s; cbn [app run].
  - destruct (run r s) as [[s2 os']|]; reflexivity.
  - destruct (step x s) as [[s1 o]|]; [|reflexivity]. rewrite IH.
    destruct (run l s1) as [[s2 os]|]; [|reflexivity].
    destruct (run r s2) as [[s3 os']|]; reflexivity.
Qed.

Lemma cycle_step : forall a p k n s, a_peer a = Some p ->
  dead s = false -> inside s = None -> length (ops s) = k -> (forall j, In j (ended s) -> j < k) ->
  (exists d st, objs s 0 = Some (Rq a true d st true) /\ (a_kind a = Snd -> st = Unset)) ->
  exists s', run [Start 0; Finish k n; Wait (Some 0)] s = Some (s', reports a n) /\
    dead s' = false /\ inside s' = None /\ ops s' = ops s ++ [(0, a)] /\
    (forall j, In j (ended s') -> j < S k) /\
    (exists d st, objs s' 0 = Some (Rq a true d st true) /\ (a_kind a = Snd -> st = Unset)).
Proof.
  intros a p k n s P D I L B [d [st [O U]]].
  assert (S1 : step (Start 0) s = Some (issue 0 a (set_obj 0 (Some (Rq a true false st true)) s), ONone)).
  { unfold step. rewrite D, I. unfold do_start, get. rewrite O. cbn. rewrite P. reflexivity. }
  assert (EB : existsb (Nat.eqb k) (ended s) = false).
  { destruct (existsb (Nat.eqb k) (ended s)) eqn:X; [|reflexivity].
    apply existsb_exists in X. destruct X as [y [Y1 Y2]]. apply Nat.eqb_eq in Y2. subst y.
    apply B in Y1. lia. }
  set (st' := match a_kind a with Rcv => From n | Snd => Unset end).
  assert (S2 : step (Finish k n) (issue 0 a (set_obj 0 (Some (Rq a true false st true)) s)) =
    Some (Rank (put (put (objs s) 0 (Some (Rq a true false st true))) 0 (Some (Rq a true true st' true)))
               (next s) (ops s ++ [(0, a)]) (k :: ended s) (inside s) (dead s), ONone)).
  { unfold step. cbn [dead issue set_obj]. rewrite D. unfold do_finish.
    cbn [ops issue set_obj ended objs next inside dead].
    rewrite nth_error_app2 by lia. rewrite L, Nat.sub_diag. cbn [nth_error]. rewrite EB.
    rewrite put_same. unfold with_done. cbn [r_args r_pers r_map r_stat].
    assert (NS : new_stat a n st = st').
    { unfold new_stat. subst st'. destruct (a_kind a); [apply U; reflexivity|reflexivity]. }
    rewrite NS, ?D. reflexivity. }
  eexists. split.
  { cbn [run]. rewrite S1. cbn [run]. rewrite S2. unfold step. cbn [dead inside].
    rewrite D, I. unfold do_wait, get. cbn [objs]. rewrite put_same. cbn. reflexivity. }
  cbn [dead inside ops ended objs]. rewrite put_same. repeat split; auto.
  - intros j [<-|K]; [lia|]. apply B in K. lia.
  - exists true, st'. split; [reflexivity|]. subst st'. intros ->. reflexivity.
Qed.

Lemma cycles_run : forall a p ns k s, a_peer a = Some p ->
  dead s = false -> inside s = None -> length (ops s) = k -> (forall j, In j (ended s) -> j < k) ->
  (exists d st, objs s 0 = Some (Rq a true d st true) /\ (a_kind a = Snd -> st = Unset)) ->
  exists s', run (cycles k ns) s = Some (s', flat_map (reports a) ns) /\
    ops s' = ops s ++ repeat (0, a) (length ns).
Proof.
  intros a p ns; induction ns as [|n ns IH]; intros k s P D I L B O.
  - exists s. cbn. rewrite app_nil_r. auto.
  - destruct (cycle_step a p k n s P D I L B O) as [s1 [R [D1 [I1 [O1 [B1 O2]]]]]].
    destruct (IH (S k) s1 P D1 I1) as [s2 [R2 E2]]; auto.
    { rewrite O1, app_length. cbn. lia. }
    exists s2. cbn [cycles]. rewrite run_app, R, R2. split; [reflexivity|].
    rewrite E2, O1, <- app_assoc. reflexivity.
Qed.

Theorem persistent_cycles : forall a p ns, a_peer a = Some p ->
  exists s, run (Init a :: cycles 0 ns) start_rank = Some (s, OHandle 0 :: flat_map (reports a) ns) /\
    ops s = repeat (0, a) (length ns).
Proof.
  intros a p ns P.
  destruct (cycles_run a p ns 0 (make a true false Unset true start_rank) P) as [s [R E]]; auto.
  - cbn. tauto.
  - exists false, Unset. cbn. auto.
  - exists s. cbn [run]. change (step (Init a) start_rank)
      with (Some (make a true false Unset true start_rank, OHandle 0)). cbv iota beta.
    rewrite R. auto.
Qed.
Print Assumptions persistent_cycles.

Definition rin : args := Args Rcv (Some 1) 7.

(* MPI_Wait on a persistent request that was not started blocks for ever; MPI lets it
   return at once with an empty status. *)
Theorem inactive_wait_refuted : exists l i m os,
  along legal (l ++ [Wait (Some i)]) start_mpi /\
  mrun (l ++ [Wait (Some i)]) start_mpi = Some (m, os ++ [OWait Empty (Some i)]) /\
  forall fs, (forall f, In f fs -> exists k n, f = Finish k n) ->
    run (l ++ fs ++ [Wait (Some i)]) start_rank = None.
Proof.
  exists [Init rin], 0. do 2 eexists. split; [|split].
  - cbn. repeat split; auto. discriminate.
  - cbn. instantiate (1 := [OHandle 0]). reflexivity.
  - intros [|f fs] H; [reflexivity|].
    destruct (H f (or_introl eq_refl)) as [k [n ->]].
    destruct k; reflexivity.
Qed.
Print Assumptions inactive_wait_refuted.

(* A second MPI_Wait on a persistent request reports the old message once more. *)
Theorem inactive_again_refuted : exists l i m os s os' n,
  along legal (l ++ [Wait (Some i)]) start_mpi /\
  mrun (l ++ [Wait (Some i)]) start_mpi = Some (m, os ++ [OWait Empty (Some i)]) /\
  run (l ++ [Wait (Some i)]) start_rank = Some (s, os' ++ [OWait (From n) (Some i)]).
Proof.
  exists [Init rin; Start 0; Finish 0 5; Wait (Some 0)], 0.
  do 5 eexists. split; [|split].
  - cbn. repeat split; auto; try discriminate. eexists; reflexivity.
  - cbn. instantiate (1 := [OHandle 0; ONone; ONone; OWait (From 5) (Some 0)]). reflexivity.
  - cbn. instantiate (2 := [OHandle 0; ONone; ONone; OWait (From 5) (Some 0)]). reflexivity.
Qed.
Print Assumptions inactive_again_refuted.

(* MPI_Waitany prefers a persistent request that was already reported, again and again,
   although another request is over. *)
Lemma any_stuck : forall s s1 o n, step (Any [Some 0; Some 1]) s = Some (s1, o) -> s1 = s ->
  run (repeat (Any [Some 0; Some 1]) n) s = Some (s, repeat o n).
Proof.
  intros s s1 o n E ->. induction n as [|n IH]; [reflexivity|].
  cbn [repeat run]. rewrite E. rewrite IH. reflexivity.
Qed.

Theorem inactive_any_refuted : exists l i j m os,
  along legal (l ++ [Any [Some i; Some j]]) start_mpi /\
  mrun (l ++ [Any [Some i; Some j]]) start_mpi = Some (m, os ++ [OAny (Some 1) (From 6) None]) /\
  forall n, exists s, run (l ++ repeat (Any [Some i; Some j]) n) start_rank =
    Some (s, os ++ repeat (OAny (Some 0) (From 5) (Some i)) n).
Proof.
  exists [Init rin; Post rin; Start 0; Finish 1 5; Wait (Some 0); Finish 0 6], 0, 1.
  do 2 eexists. split; [|split].
  - cbn. repeat split; auto; try discriminate.
    + eexists; reflexivity.
    + constructor; [cbn; discriminate|]. constructor; [cbn; discriminate|]. constructor.
  - cbn. instantiate (1 := [OHandle 0; OHandle 1; ONone; ONone; OWait (From 5) (Some 0); ONone]).
    reflexivity.
  - intros n.
    set (l := [Init rin; Post rin; Start 0; Finish 1 5; Wait (Some 0); Finish 0 6]).
    destruct (run l start_rank) as [[s os]|] eqn:R; [|vm_compute in R; discriminate].
    exists s. rewrite run_app, R. vm_compute in R. injection R as <- <-.
    erewrite any_stuck; [reflexivity|reflexivity|reflexivity].
Qed.
Print Assumptions inactive_any_refuted.

(* MPI_Test that finds a persistent request complete deletes it: the next MPI_Start of
   it fails. *)
Theorem persistent_test_refuted : exists l i m os,
  along legal (l ++ [Start i]) start_mpi /\
  mrun (l ++ [Start i]) start_mpi = Some (m, os) /\ ~ In OFail os /\
  exists s os', run (l ++ [Start i]) start_rank = Some (s, os' ++ [OFail]) /\ dead s = true.
Proof.
  exists [Init rin; Start 0; Finish 0 5; Test (Some 0)], 0. do 2 eexists. split; [|split; [|split]].
  - cbn. repeat split; auto; try discriminate; eexists; reflexivity.
  - cbn. reflexivity.
  - cbn. intuition discriminate.
  - do 2 eexists. split; [|].
    + cbn. instantiate (1 := [OHandle 0; ONone; ONone; OTest true (From 5) None]). reflexivity.
    + reflexivity.
Qed.
Print Assumptions persistent_test_refuted.

(* ---------- MPI_PROC_NULL ---------- *)

Definition real (o : nat * args) : Prop := a_peer (snd o) <> None.

Lemma post_real : forall a live s, Forall real (ops s) -> Forall real (ops (post a live s)).
Proof.
  intros a live s F. unfold post. destruct (a_peer a) eqn:P; cbn; [|exact F].
  apply Forall_app. split; [exact F|]. constructor; [|constructor]. unfold real. cbn. congruence.
Qed.

Lemma delete_ops : forall l s, ops (delete l s) = ops s.
Proof. intros l s. apply delete_rest. Qed.

Lemma step_real : forall x s s' o, step x s = Some (s', o) -> Forall real (ops s) -> Forall real (ops s').
Proof.
  intros x s s' o H F. unfold step in H. destruct (dead s); [discriminate|].
  assert (FI : forall i r, ops (fst (finalize i r s)) = ops s).
  { intros i r. unfold finalize. destruct (r_pers r); reflexivity. }
  destruct x as [a|a|i|h|hs|h|h|a ign|a b ign| |k n].
  all: try (destruct (inside s) eqn:IN; [discriminate|]).
  - injection H as <- <-. apply post_real, F.
  - injection H as <- <-. exact F.
  - unfold do_start in H. destruct (get s i) as [r|]; [|injection H as <- <-; exact F].
    destruct (r_pers r); [|injection H as <- <-; exact F].
    destruct (a_peer (r_args r)) eqn:P; injection H as <- <-; cbn; [|exact F].
    apply Forall_app. split; [exact F|]. constructor; [|constructor]. unfold real. cbn. congruence.
  - unfold do_wait in H. destruct h as [i|]; [|injection H as <- <-; exact F].
    destruct (get s i) as [r|]; [|injection H as <- <-; exact F].
    destruct (r_done r); [|discriminate]. specialize (FI i r).
    destruct (finalize i r s) as [s1 h1]. injection H as <- <-. cbn in FI. rewrite FI. exact F.
  - unfold do_any in H. destruct (first_done s 0 hs) as [[[[ix i] r]|] b].
    + specialize (FI i r). destruct (finalize i r s) as [s1 h1]. injection H as <- <-.
      cbn in FI. rewrite FI. exact F.
    + destruct b; [injection H as <- <-; exact F|].
      destruct (forallb _ hs); [injection H as <- <-; exact F|discriminate].
  - unfold do_test in H. destruct h as [i|]; [|injection H as <- <-; exact F].
    destruct (get s i) as [r|]; [|injection H as <- <-; exact F].
    destruct (r_done r); injection H as <- <-; exact F.
  - unfold do_free in H. destruct h as [i|]; [|injection H as <- <-; exact F].
    destruct (get s i) as [r|]; [|injection H as <- <-; exact F].
    destruct (r_done r); injection H as <- <-; exact F.
  - injection H as <- <-. unfold do_enter.
    destruct (a_peer a), (a_kind a); cbn [enter ops]; try exact F; apply post_real, F.
  - injection H as <- <-. unfold do_enter_sr, do_enter.
    destruct (a_peer a), (a_peer b), (a_kind b); cbn [enter ops]; try exact F;
      repeat apply post_real; exact F.
  - unfold do_leave in H. destruct (inside s) as [c|]; [|discriminate].
    destruct (forallb (complete s) (c_wait c)); [|discriminate].
    destruct (c_null c), (c_ign c); injection H as <- <-; cbn [fail out_of fst ops];
      rewrite ?delete_ops; exact F.
  - unfold do_finish in H. destruct (nth_error (ops s) k) as [[i a]|]; [|discriminate].
    destruct (existsb _ (ended s)); [discriminate|].
    destruct (objs s i); injection H as <- <-; exact F.
Qed.

Lemma run_real : forall l s s' os, run l s = Some (s', os) -> Forall real (ops s) -> Forall real (ops s').
Proof.
  induction l as [|x l IH]; intros s s' os H F; cbn [run] in H.
  - injection H as <- <-. exact F.
  - destruct (step x s) as [[s1 o]|] eqn:E; [|discriminate].
    destruct (run l s1) as [[s2 os2]|] eqn:R; [|discriminate]. injection H as <- <-.
    eapply IH; [exact R|]. eapply step_real; eauto.
Qed.

(* Whatever is called, nothing is sent to or awaited from MPI_PROC_NULL. *)
Theorem proc_null_no_transfer : forall l s os, run l start_rank = Some (s, os) ->
  forall i a, In (i, a) (ops s) -> a_peer a <> None.
Proof.
  intros l s os H i a I. pose proof (run_real l _ _ _ H (Forall_nil _)) as F.
  rewrite Forall_forall in F. apply (F (i, a) I).
Qed.
Print Assumptions proc_null_no_transfer.

(* Calls with MPI_PROC_NULL are over at once: isend and irecv at any moment can be waited
   for immediately, a receive reports the null process; MPI_Send returns; MPI_Recv and
   MPI_Sendrecv return and report it if they are given a status. *)
Theorem proc_null_partial : forall l s os a, run l start_rank = Some (s, os) ->
  dead s = false -> inside s = None -> a_peer a = None ->
  (exists s' h, run [Post a; Wait (Some (next s))] s = Some (s', [OHandle h; OWait (null_status (a_kind a)) None])) /\
  (exists s', run [Enter a false; Leave] s =
     Some (s', [ONone; match a_kind a with Snd => ONone | Rcv => OWait Null None end])) /\
  (a_kind a = Rcv -> forall b, a_peer b = None ->
     exists s', run [EnterSR b a false; Leave] s = Some (s', [ONone; OWait Null None])).
Proof.
  intros l s os a _ D I P. split; [|split].
  - eexists. exists (next s). cbn [run]. unfold step, post. rewrite D, I, P.
    cbn [dead make inside]. rewrite D, I. unfold do_wait, get. cbn [objs make].
    rewrite put_same. cbn. reflexivity.
  - destruct (a_kind a) eqn:K; eexists; cbn [run]; unfold step, do_enter; rewrite D, I, P, K;
      cbn [dead enter inside]; rewrite D; reflexivity.
  - intros K b Pb. eexists. cbn [run]. unfold step, do_enter_sr. rewrite D, I, P, Pb.
    cbn [dead enter inside]. rewrite D. reflexivity.
Qed.
Print Assumptions proc_null_partial.

(* MPI_Recv and MPI_Sendrecv from MPI_PROC_NULL with MPI_STATUS_IGNORE write through the
   null pointer. *)
Theorem proc_null_ignore_refuted : exists a b, a_peer a = None /\
  (exists s, run [Enter a true; Leave] start_rank = Some (s, [ONone; OFail]) /\ dead s = true) /\
  (exists s, run [EnterSR b a true; Leave] start_rank = Some (s, [ONone; OFail]) /\ dead s = true) /\
  along legal [Enter a true; Leave] start_mpi /\ along legal [EnterSR b a true; Leave] start_mpi /\
  (exists m, mrun [Enter a true; Leave] start_mpi = Some (m, [ONone; ONone])) /\
  (exists m, mrun [EnterSR b a true; Leave] start_mpi = Some (m, [ONone; ONone])).
Proof.
  exists (Args Rcv None 0), (Args Snd None 0). split; [reflexivity|].
  repeat split; try (eexists; split; reflexivity); try (eexists; reflexivity).
Qed.
Print Assumptions proc_null_ignore_refuted.

(* A persistent receive from MPI_PROC_NULL reports a status that was never set. *)
Theorem proc_null_status_refuted : exists a s, a_peer a = None /\ a_kind a = Rcv /\
  along legal [Init a; Start 0; Wait (Some 0)] start_mpi /\
  (exists m, mrun [Init a; Start 0; Wait (Some 0)] start_mpi =
     Some (m, [OHandle 0; ONone; OWait Null (Some 0)])) /\
  run [Init a; Start 0; Wait (Some 0)] start_rank =
     Some (s, [OHandle 0; ONone; OWait Unset (Some 0)]).
Proof.
  exists (Args Rcv None 0). eexists. split; [reflexivity|]. split; [reflexivity|].
  split; [|split].
  - cbn. repeat split; auto; try discriminate. eexists; reflexivity.
  - eexists. reflexivity.
  - cbn. reflexivity.
Qed.
Print Assumptions proc_null_status_refuted.

(* ---------- examples ---------- *)

(* Two persistent requests, a send and a receive, used twice; a sendrecv between; a
   request freed while its transfer is under way. *)
Definition sout : args := Args Snd (Some 1) 3.
Definition ex : list act :=
  [Init rin; Init sout; Start 0; Start 1; Finish 1 0; Any [Some 0; Some 1]; Start 1;
   Finish 0 8; Wait (Some 0); EnterSR sout rin false; Finish 4 9; Finish 3 0; Leave;
   Start 0; Post sout; Free (Some 4); Finish 5 4; Wait (Some 0); Finish 2 0; Wait (Some 1);
   Finish 6 0; Free (Some 0)].

Example persistent_example : along tidy ex start_mpi /\
  exists s, run ex start_rank = Some (s,
   [OHandle 0; OHandle 1; ONone; ONone; ONone; OAny (Some 1) Unset (Some 1); ONone;
    ONone; OWait (From 8) (Some 0); ONone; ONone; ONone; OWait (From 9) None;
    ONone; OHandle 4; ONone; ONone; OWait (From 4) (Some 0); ONone; OWait Unset (Some 1);
    ONone; ONone]) /\
  ops s = [(0, rin); (1, sout); (1, sout); (2, sout); (3, rin); (0, rin); (4, sout)].
Proof.
  split.
  - vm_compute. repeat match goal with
    | |- True => exact I
    | |- _ /\ _ => split
    | |- Forall _ _ => constructor
    | |- _ \/ _ => right
    | |- _ = _ => reflexivity
    | |- _ -> _ => intro
    | |- exists q, Some _ = Some (q, _) => eexists; reflexivity
    | |- exists i, Some _ = Some i /\ _ => eexists; split; [reflexivity|]
    | H : _ = _ |- _ => discriminate H
    end.
  - eexists. split; vm_compute; reflexivity.
Qed.

Example cycles_example : exists s, run (Init rin :: cycles 0 [4; 9]) start_rank =
  Some (s, [OHandle 0; ONone; ONone; OWait (From 4) (Some 0); ONone; ONone; OWait (From 9) (Some 0)]) /\
  ops s = [(0, rin); (0, rin)].
Proof. eexists. split; reflexivity. Qed.

Example proc_null_example : exists s,
  run [Enter sout true; Finish 0 0; Leave; EnterSR sout (Args Rcv None 0) false; Finish 1 0; Leave] start_rank =
  Some (s, [ONone; ONone; ONone; ONone; ONone; OWait Null None]) /\ ops s = [(0, sout); (1, sout)].
Proof. eexists. split; reflexivity. Qed.
