(* Messages come to rest: every move lowers a weight, and a message on its way can move *)
From Coq Require Import List ZArith Bool Arith Lia Permutation.
From Verif Require Import DtModel DtSpec DtProof PdModel PdSpec PdHeap PdInv PdMove PdRun.
Import ListNotations.
Local Open Scope Z_scope.

Definition wt (it : item) : nat :=
  match fst it, g_ty (snd it) with
  | Unexp, _ => 0
  | Cq, Smsg => match g_prot (snd it) with Eager1 => 12 | _ => 1 end
  | Cq, GetPay => 5
  | Cq, _ => 1
  | Net, Smsg => match g_prot (snd it) with Eager1 => 15 | _ => 4 end
  | Net, GetPay => 8
  | Net, GetReq => 11
  | Net, _ => 2
  end%nat.
Definition wts (its : list item) : nat := fold_right (fun x a => wt x + a)%nat 0%nat its.
Lemma wts_app : forall a b, wts (a ++ b) = (wts a + wts b)%nat.
Proof. induction a as [|x a IH]; intros b; cbn [app wts fold_right]; [reflexivity|]. fold (wts (a ++ b)) (wts a). rewrite IH. lia. Qed.
Lemma wts_cons : forall x a, wts (x :: a) = (wt x + wts a)%nat.
Proof. reflexivity. Qed.

Lemma acks_net : forall m, (wts (acks Net m) <= 2)%nat.
Proof. intros m. unfold acks. destruct (g_ack m); [|cbn; lia]. destruct (g_ty m) eqn:E; cbn; unfold wt; cbn; rewrite ?E; cbn; lia. Qed.

Lemma arrive_wt : forall c m H its H', arrive c m H = Some (its, H') -> (wts its < wt (Net, m))%nat.
Proof.
  intros c m H its H' E. unfold arrive in E. unfold wt at 1. cbn [fst snd].
  destruct (g_ty m) eqn:T.
  - destruct (g_path m); [..|injection E as <- _; cbn; unfold wt; cbn; rewrite T; destruct (g_prot m); cbn; lia];
      (destruct (on_wire c (g_smsg m) (g_len m) H) as [(w, h1)|]; [|discriminate]; injection E as <- _;
       pose proof (acks_net m); rewrite wts_cons; unfold wt; cbn [fst snd with_bufs g_ty g_prot]; rewrite T; destruct (g_prot m); lia).
  - destruct (on_wire c _ _ H) as [(w, h1)|]; [|discriminate]. injection E as <- _.
    match goal with |- context [acks Net ?x] => pose proof (acks_net x) end. rewrite wts_cons. unfold wt. cbn [fst snd with_bufs to_payload g_ty]. lia.
  - destruct (g_path m).
    3: { destruct (memcpy _ _ _ H) as [h1|]; [|discriminate]. destruct (free _ h1); [|discriminate]. injection E as <- _.
         cbn. unfold wt. cbn. rewrite T. lia. }
    all: destruct (memcpy _ _ _ H) as [h1|]; [|discriminate]; injection E as <- _; pose proof (acks_net m); rewrite wts_cons; unfold wt; cbn [fst snd]; rewrite T; lia.
  - injection E as <- _. cbn. unfold wt. cbn. rewrite T. lia.
  - injection E as <- _. cbn. unfold wt. cbn. rewrite T. lia.
Qed.

Lemma rdv_ack_wt : forall m rest s o s', rdv_ack m rest s = Next o s' -> s_items s' = rest /\ o = [OSendDone (g_id m)].
Proof.
  intros m rest s o s' E. unfold rdv_ack in E. destruct (existsb _ _); [|discriminate]. destruct (destroy m (s_hp s)); [|discriminate].
  injection E as <- <-. auto.
Qed.

Definition done_obs (e : pobs) : Prop := match e with OSendDone _ | ORecvDone _ _ _ => True | _ => False end.

Lemma handle_wt : forall c m rest s o s', handle c m rest s = Next o s' ->
  (wts (s_items s') < wt (Cq, m) + wts rest)%nat /\ (forall e, In e o -> done_obs e).
Proof.
  intros c m rest s o s' E. unfold handle in E. unfold wt. cbn [fst snd].
  assert (NO : forall e : pobs, In e [] -> done_obs e) by (intros e []).
  assert (U : forall s0 h0, wts (s_items (set_items s0 h0 ((Unexp, m) :: rest))) = wts rest) by reflexivity.
  destruct (g_prot m) eqn:P, (g_ty m) eqn:T; try discriminate;
    try (injection E as <- <-; rewrite U; split; [lia|exact NO]).
  - destruct (free (g_smsg m) (s_hp s)) as [h|]; [|discriminate]. destruct (destroy m h); [|discriminate]. injection E as <- <-. cbn [s_items set_items]. split; [lia|exact NO].
  - cbn [alloc] in E. destruct (inject _ _ _) as [(its, h1)|] eqn:EI; [|discriminate]. injection E as <- <-. split; [|exact NO].
    cbn [s_items set_items]. rewrite wts_app. unfold inject in EI. cbn [get_request g_ty g_path] in EI.
    assert (wts its <= 11)%nat; [|lia]. destruct (g_path m); injection EI as <- _; cbn; lia.
  - destruct (free (g_remote m) (s_hp s)) as [h|]; [|discriminate]. destruct (destroy m h); [|discriminate]. injection E as <- <-. cbn [s_items set_items]. split; [lia|exact NO].
  - destruct (g_stage m).
    + injection E as <- <-. rewrite U. split; [lia|exact NO].
    + apply rdv_ack_wt in E. destruct E as (-> & ->). split; [lia|]. intros e [<-|[]]. exact Logic.I.
  - destruct (find_recv _ _) as [q|]; [|discriminate]. destruct (finalize m q (s_hp s)) as [h|]; [|discriminate]. destruct (c_soft c).
    + destruct (inject c (soft_ack m) h) as [(its, h1)|] eqn:EI; [|discriminate]. injection E as <- <-.
      split; [|intros e [<-|[]]; exact Logic.I]. cbn [s_items]. rewrite wts_app. unfold inject in EI. cbn [soft_ack g_ty g_path] in EI.
      assert (wts its <= 4)%nat; [|lia]. unfold acks in EI. destruct (g_path m); cbn in EI; injection EI as <- _; cbn; unfold wt; cbn; rewrite P; lia.
    + destruct (destroy m h) as [h1|]; [|discriminate]. injection E as <- <-. cbn [s_items]. split; [lia|]. intros e [<-|[]]. exact Logic.I.
  - apply rdv_ack_wt in E. destruct E as (-> & ->). split; [lia|]. intros e [<-|[]]. exact Logic.I.
Qed.

Lemma move_wt : forall c s l it r o s', s_items s = l ++ it :: r -> fst it <> Unexp -> moves_on c it (l ++ r) s = Next o s' ->
  (wts (s_items s') < wts (s_items s))%nat /\ (forall e, In e o -> done_obs e).
Proof.
  intros c s l [pl m] r o s' E N M. rewrite E, wts_app, wts_cons. unfold moves_on in M. cbn [fst snd] in *. destruct pl; [| |congruence].
  - destruct (arrive c m (s_hp s)) as [(its, h)|] eqn:A; [|discriminate]. injection M as <- <-. apply arrive_wt in A.
    split; [|intros e []]. cbn [s_items set_items]. rewrite !wts_app. lia.
  - apply handle_wt in M. rewrite wts_app in M. split; [lia|apply M].
Qed.

Lemma settle_bound : forall c k h s h2 s2, settle c k h s h2 s2 -> (k + wts (s_items s2) <= wts (s_items s))%nat.
Proof.
  intros c k h s h2 s2 S. induction S as [h s|k h s l it r o s1 h2 s2 E N M S IH]; [lia|].
  destruct (move_wt _ _ _ _ _ _ _ E N M) as (W & _). lia.
Qed.

Lemma settle_run : forall c user k h s h2 s2, settle c k h s h2 s2 -> prun c user h s -> prun c user h2 s2.
Proof. intros c user k h s h2 s2 S. induction S; intros R; [exact R|]. apply IHS. eapply p_move; eauto. Qed.

Lemma rules_done : forall o h, (forall e, In e o -> done_obs e) -> rules h -> rules (o ++ h).
Proof.
  induction o as [|e o IH]; intros h D R; [exact R|]. cbn [app]. specialize (IH h (fun x X => D x (or_intror X)) R).
  assert (De := D e (or_introl eq_refl)). destruct IH as (O & (T1 & T2) & F). split; [|split].
  - cbn. split; [exact O|]. destruct e; try contradiction; exact Logic.I.
  - split; [intros f b d n src [->|I]; [contradiction|eauto]|intros r b d n dst [->|I]; [contradiction|eauto]].
  - intros r f b1 d1 n1 src b2 d2 n2 dst [A|A] [B|B] [C|C]; try (subst e; contradiction). eapply F; eauto.
Qed.

Lemma settle_rules : forall c k h s h2 s2, settle c k h s h2 s2 -> rules h -> rules h2.
Proof.
  intros c k h s h2 s2 S. induction S as [h s|k h s l it r o s1 h2 s2 E N M S IH]; intros R; [exact R|]. apply IH.
  apply rules_done; [|exact R]. apply (move_wt _ _ _ _ _ _ _ E N M).
Qed.

Lemma quiet_dec : forall its : list item, (forall it, In it its -> fst it = Unexp) \/ exists l it r, its = l ++ it :: r /\ fst it <> Unexp.
Proof.
  induction its as [|x its IH]; [left; intros it []|]. destruct (fst x) eqn:E.
  - right. exists [], x, its. split; [reflexivity|congruence].
  - right. exists [], x, its. split; [reflexivity|congruence].
  - destruct IH as [Q|(l & it & r & -> & N)].
    + left. intros it [<-|I]; auto.
    + right. exists (x :: l), it, r. auto.
Qed.

Lemma settles : forall c user w h s, (wts (s_items s) <= w)%nat -> prun c user h s -> rules h ->
  exists k h2 s2, settle c k h s h2 s2 /\ quiet s2.
Proof.
  intros c user. induction w as [|w IH]; intros h s W R RU.
  all: destruct (quiet_dec (s_items s)) as [Q|(l & it & r & E & N)]; [exists 0%nat, h, s; split; [constructor|exact Q]|].
  all: destruct (moves_ok c user h s l it r (run_inv c user h s R RU) (proj1 RU) E N) as (o & s1 & M & _).
  all: destruct (move_wt _ _ _ _ _ _ _ E N M) as (LT & D).
  1: lia.
  destruct (IH (o ++ h) s1) as (k & h2 & s2 & S & Q); [lia|eapply p_move; eauto|now apply rules_done|].
  exists (Datatypes.S k), h2, s2. split; [eapply se_move; eauto|exact Q].
Qed.
