From Coq Require Import List NArith Bool Arith Lia Permutation Sorted.
From Coq Require Import ZifyBool ZifyNat ZifyN.
From Verif Require Import EvModel EvSpec EvProof.
Import ListNotations.
Local Open Scope N_scope.

Section Inv.
Context {S P : Type}.
Variable M : machine S P.
Variable own : N -> nat.
Variable n : nat.
Hypothesis Hown : forall c, (own c < n)%nat.
Hypothesis Hlinks : own_links M.

Notation event := (event P).
Notation wstate := (wstate S P).
Notation sysupd := (@sysupd S P).

Definition ls (e : event) : N * N := (e_link e, k_seq (e_key e)).

Definition seqof (sys : nat -> wstate) (l : N) : N := w_seq (sys (own (m_src M l))) l.

Record PInv (lb : N) (h : option N) (sys : nat -> wstate) : Prop := {
  pi_sorted : forall w, (w < n)%nat -> qsorted (w_queue (sys w));
  pi_q : forall w e, (w < n)%nat -> In e (w_queue (sys w)) ->
     lb <= e_time e /\ w_now (sys w) <= e_time e /\ own (m_dst M (e_link e)) = w /\
     k_seq (e_key e) < seqof sys (e_link e) /\ e_body e <> None;
  pi_now : forall w, (w < n)%nat -> before (w_now (sys w)) h = true;
  pi_out : forall w e, (w < n)%nat -> In e (w_out (sys w)) ->
     before (e_time e) h = false /\ own (m_src M (e_link e)) = w /\
     own (m_dst M (e_link e)) <> w /\
     k_seq (e_key e) < seqof sys (e_link e) /\ e_body e <> None /\
     exists m, w_minipc (sys w) = Some m /\ m <= e_time e;
  pi_ipc : forall w m, (w < n)%nat -> w_minipc (sys w) = Some m -> lb <= m;
  pi_nodup : forall w, (w < n)%nat -> NoDup (map ls (w_out (sys w)));
  pi_sep : forall w w2 e x, (w < n)%nat -> (w2 < n)%nat ->
     In e (w_out (sys w)) -> In x (w_queue (sys w2)) -> ls x <> ls e;
  pi_flags : forall w, (w < n)%nat -> w_past (sys w) = false /\ w_lost (sys w) = false
}.

Lemma sysupd_same sys w s : sysupd sys w s w = s.
Proof. unfold sysupd. now rewrite Nat.eqb_refl. Qed.
Lemma sysupd_other sys w s x : x <> w -> sysupd sys w s x = sys x.
Proof. unfold sysupd. intros H. apply Nat.eqb_neq in H. now rewrite H. Qed.

Lemma key_ls (x e : event) : e_key x = e_key e -> ls x = ls e.
Proof. unfold ls, e_link. now intros ->. Qed.

Section Step.
Variables (lb : N) (h : option N).
(** A remote send done at or after [lb] arrives at or after the horizon. *)
Hypothesis Hlook : forall l t d, remote M own l = true -> lb <= t ->
   before (t + d + m_lat M l) h = false.

Lemma do_send_PInv sys w s :
  (w < n)%nat -> PInv lb h sys -> own (m_src M (s_link s)) = w -> lb <= w_now (sys w) ->
  PInv lb h (sysupd sys w (do_send M own (sys w) s)) /\
  w_now (do_send M own (sys w) s) = w_now (sys w).
Proof.
  intros Hw HI Hsrc Hlb.
  set (l := s_link s) in *.
  set (arr := w_now (sys w) + s_delay s + m_lat M l).
  set (e0 := Ev (Key arr l (w_seq (sys w) l)) (Some (s_pay s))).
  assert (Hseq0 : seqof sys l = w_seq (sys w) l) by (unfold seqof; rewrite Hsrc; auto).
  set (sys' := sysupd sys w (do_send M own (sys w) s)).
  assert (Hcase : (remote M own l = true /\
       do_send M own (sys w) s = W (w_now (sys w)) (w_queue (sys w)) (omin (Some arr) (w_minipc (sys w)))
          (w_stopped (sys w)) (w_comp (sys w)) (upd (w_seq (sys w)) l (w_seq (sys w) l + 1))
          (w_out (sys w) ++ [e0]) (w_log (sys w)) (w_past (sys w)) (w_lost (sys w))) \/
     (remote M own l = false /\
       do_send M own (sys w) s = W (w_now (sys w)) (qinsert e0 (w_queue (sys w))) (w_minipc (sys w))
          (w_stopped (sys w)) (w_comp (sys w)) (upd (w_seq (sys w)) l (w_seq (sys w) l + 1))
          (w_out (sys w)) (w_log (sys w)) (w_past (sys w) || (arr <? w_now (sys w)))
          (w_lost (sys w) || qclash e0 (w_queue (sys w))))).
  { unfold do_send. fold l. destruct (remote M own l); [left|right]; split; reflexivity. }
  assert (Hseqw : w_seq (do_send M own (sys w) s) = upd (w_seq (sys w)) l (w_seq (sys w) l + 1)).
  { destruct Hcase as [[_ ->]|[_ ->]]; reflexivity. }
  assert (Hmono : forall l', seqof sys l' <= seqof sys' l').
  { intros l'. unfold seqof, sys', EvSpec.sysupd.
    destruct (Nat.eqb (own (m_src M l')) w) eqn:E; [|lia].
    rewrite Hseqw. apply Nat.eqb_eq in E. rewrite E. unfold upd.
    destruct (l' =? l) eqn:E2; [apply N.eqb_eq in E2; subst l'; lia|lia]. }
  assert (Hseq1 : seqof sys' l = w_seq (sys w) l + 1).
  { unfold seqof, sys'. rewrite Hsrc, sysupd_same, Hseqw. unfold upd. now rewrite N.eqb_refl. }
  assert (Hfresh : forall x, In x (w_queue (sys w)) \/ In x (w_out (sys w)) -> ls x <> ls e0).
  { intros x Hx Heq. unfold ls in Heq. simpl in Heq. injection Heq as H1 H2.
    change (e_link e0) with l in H1.
    destruct Hx as [Hx|Hx].
    - destruct (pi_q _ _ _ HI _ _ Hw Hx) as (_&_&_&Hb&_). rewrite H1, H2, Hseq0 in Hb. lia.
    - destruct (pi_out _ _ _ HI _ _ Hw Hx) as (_&_&_&Hb&_). rewrite H1, H2, Hseq0 in Hb. lia. }
  destruct Hcase as [[Hr Hd]|[Hr Hd]].
  - (* remote *)
    split; [|rewrite Hd; reflexivity].
    assert (Hdst : own (m_dst M l) <> w).
    { unfold remote in Hr. apply negb_true_iff, Nat.eqb_neq in Hr. rewrite Hsrc in Hr. auto. }
    assert (Hbef : before arr h = false) by (apply Hlook; auto).
    assert (Hq : forall x, w_queue (sys' x) = w_queue (sys x)).
    { intros x. unfold sys', EvSpec.sysupd. destruct (Nat.eqb x w) eqn:E; auto.
      apply Nat.eqb_eq in E; subst x. rewrite Hd. reflexivity. }
    assert (Hnow : forall x, w_now (sys' x) = w_now (sys x)).
    { intros x. unfold sys', EvSpec.sysupd. destruct (Nat.eqb x w) eqn:E; auto.
      apply Nat.eqb_eq in E; subst x. rewrite Hd. reflexivity. }
    assert (Hout : forall x y, In y (w_out (sys' x)) -> In y (w_out (sys x)) \/ (x = w /\ y = e0)).
    { intros x y. unfold sys', EvSpec.sysupd. destruct (Nat.eqb x w) eqn:E; auto.
      apply Nat.eqb_eq in E; subst x. rewrite Hd. simpl. rewrite in_app_iff. simpl. intuition. }
    constructor.
    + intros x Hx. rewrite Hq. now apply (pi_sorted _ _ _ HI).
    + intros x e Hx He. rewrite Hq in He. rewrite Hnow.
      destruct (pi_q _ _ _ HI _ _ Hx He) as (?&?&?&?&?).
      specialize (Hmono (e_link e)). repeat split; auto; lia.
    + intros x Hx. rewrite Hnow. now apply (pi_now _ _ _ HI).
    + intros x e Hx He.
      assert (Hipc : forall m0, w_minipc (sys x) = Some m0 -> exists m, w_minipc (sys' x) = Some m /\ m <= m0).
      { intros m0 Hm0. unfold sys', EvSpec.sysupd. destruct (Nat.eqb x w) eqn:E; [|eauto with arith].
        - apply Nat.eqb_eq in E; subst x. rewrite Hd. simpl. rewrite Hm0. exists (N.min arr m0). split; auto. lia.
        - exists m0. split; auto. lia. }
      apply Hout in He as [He|[-> ->]].
      * destruct (pi_out _ _ _ HI _ _ Hx He) as (?&?&?&?&?&m0&Hm0&?).
        specialize (Hmono (e_link e)). destruct (Hipc m0 Hm0) as (m&Hm&?).
        repeat split; auto; try lia. exists m. split; auto. lia.
      * repeat split; auto.
        -- change (e_link e0) with l. rewrite Hseq1. simpl. lia.
        -- discriminate.
        -- unfold sys'. rewrite sysupd_same, Hd. simpl.
           destruct (w_minipc (sys w)) as [m|]; simpl; eexists; split; try reflexivity; unfold e_time; simpl; lia.
    + intros x m Hx. unfold sys', EvSpec.sysupd. destruct (Nat.eqb x w) eqn:E.
      * apply Nat.eqb_eq in E; subst x. rewrite Hd. simpl.
        destruct (w_minipc (sys w)) as [m0|] eqn:Em; intros Hm; injection Hm as <-.
        -- pose proof (pi_ipc _ _ _ HI _ _ Hw Em). subst arr. lia.
        -- subst arr. lia.
      * now apply (pi_ipc _ _ _ HI).
    + intros x Hx. unfold sys', EvSpec.sysupd. destruct (Nat.eqb x w) eqn:E.
      * rewrite Hd. simpl. rewrite map_app. simpl.
        apply Permutation_NoDup with (l := ls e0 :: map ls (w_out (sys w))).
        { apply Permutation_cons_append. }
        constructor; [|now apply (pi_nodup _ _ _ HI)].
        intros Hin. apply in_map_iff in Hin as (y&Hy&Hin). apply (Hfresh y); auto.
      * now apply (pi_nodup _ _ _ HI).
    + intros x w2 e y Hx Hw2 He Hy. rewrite Hq in Hy. apply Hout in He as [He|[-> ->]].
      * eapply (pi_sep _ _ _ HI x w2); eauto.
      * destruct (pi_q _ _ _ HI _ _ Hw2 Hy) as (_&_&_&Hb&_).
        intros Heq. unfold ls in Heq. injection Heq as H1 H2.
        change (e_link e0) with l in H1. change (k_seq (e_key e0)) with (w_seq (sys w) l) in H2.
        rewrite H1, H2, Hseq0 in Hb. lia.
    + intros x Hx. unfold sys', EvSpec.sysupd. destruct (Nat.eqb x w) eqn:E.
      * apply Nat.eqb_eq in E; subst x. rewrite Hd. simpl. now apply (pi_flags _ _ _ HI).
      * now apply (pi_flags _ _ _ HI).
  - (* local *)
    split; [|rewrite Hd; reflexivity].
    assert (Hdst : own (m_dst M l) = w).
    { unfold remote in Hr. apply negb_false_iff, Nat.eqb_eq in Hr. rewrite Hsrc in Hr. auto. }
    assert (Hc : qclash e0 (w_queue (sys w)) = false).
    { apply qclash_false. intros x Hx Hk. apply (Hfresh x); auto. now apply key_ls. }
    assert (Hq : forall x y, In y (w_queue (sys' x)) -> In y (w_queue (sys x)) \/ (x = w /\ y = e0)).
    { intros x y. unfold sys', EvSpec.sysupd. destruct (Nat.eqb x w) eqn:E; auto.
      apply Nat.eqb_eq in E; subst x. rewrite Hd. simpl. intros Hy. apply qinsert_In_1 in Hy. intuition. }
    assert (Hnow : forall x, w_now (sys' x) = w_now (sys x)).
    { intros x. unfold sys', EvSpec.sysupd. destruct (Nat.eqb x w) eqn:E; auto.
      apply Nat.eqb_eq in E; subst x. rewrite Hd. reflexivity. }
    assert (Hout : forall x, w_out (sys' x) = w_out (sys x)).
    { intros x. unfold sys', EvSpec.sysupd. destruct (Nat.eqb x w) eqn:E; auto.
      apply Nat.eqb_eq in E; subst x. rewrite Hd. reflexivity. }
    assert (Hipc : forall x, w_minipc (sys' x) = w_minipc (sys x)).
    { intros x. unfold sys', EvSpec.sysupd. destruct (Nat.eqb x w) eqn:E; auto.
      apply Nat.eqb_eq in E; subst x. rewrite Hd. reflexivity. }
    constructor.
    + intros x Hx. unfold sys', EvSpec.sysupd. destruct (Nat.eqb x w) eqn:E.
      * rewrite Hd. simpl. apply qinsert_sorted. now apply (pi_sorted _ _ _ HI).
      * now apply (pi_sorted _ _ _ HI).
    + intros x e Hx He. rewrite Hnow. apply Hq in He as [He|[-> ->]].
      * destruct (pi_q _ _ _ HI _ _ Hx He) as (?&?&?&?&?).
        specialize (Hmono (e_link e)). repeat split; auto; lia.
      * change (e_link e0) with l. change (e_time e0) with arr. rewrite Hseq1. simpl.
        subst arr. repeat split; auto; try lia. discriminate.
    + intros x Hx. rewrite Hnow. now apply (pi_now _ _ _ HI).
    + intros x e Hx He. rewrite Hout in He. rewrite Hipc.
      destruct (pi_out _ _ _ HI _ _ Hx He) as (?&?&?&?&?&?).
      specialize (Hmono (e_link e)). repeat split; auto; lia.
    + intros x m Hx. rewrite Hipc. now apply (pi_ipc _ _ _ HI).
    + intros x Hx. rewrite Hout. now apply (pi_nodup _ _ _ HI).
    + intros x w2 e y Hx Hw2 He Hy. rewrite Hout in He. apply Hq in Hy as [Hy|[-> ->]].
      * eapply (pi_sep _ _ _ HI x w2); eauto.
      * destruct (pi_out _ _ _ HI _ _ Hx He) as (_&Hs&_&Hb&_).
        intros Heq. unfold ls in Heq. injection Heq as H1 H2.
        change (e_link e0) with l in H1. change (k_seq (e_key e0)) with (w_seq (sys w) l) in H2.
        rewrite <- H1, <- H2, Hseq0 in Hb. lia.
    + intros x Hx. unfold sys', EvSpec.sysupd. destruct (Nat.eqb x w) eqn:E.
      * apply Nat.eqb_eq in E; subst x. rewrite Hd. simpl. destruct (pi_flags _ _ _ HI w Hw) as [-> ->].
        rewrite Hc. simpl. split; auto. apply N.ltb_ge. subst arr. lia.
      * now apply (pi_flags _ _ _ HI).
Qed.

(** Only the state of the touched worker matters pointwise, so replace [sys] by a
    pointwise equal one freely. *)
Lemma PInv_ext lb' h' sys sys' :
  (forall w, (w < n)%nat -> sys w = sys' w) -> PInv lb' h' sys -> PInv lb' h' sys'.
Proof.
  intros He HI. assert (Hs : forall l, seqof sys' l = seqof sys l) by (intros; unfold seqof; now rewrite <- He by apply Hown).
  constructor; intros; try rewrite Hs;
    repeat match goal with H : (?x < n)%nat |- _ => rewrite <- (He x H) in *; revert H end; intros.
  - now apply (pi_sorted _ _ _ HI).
  - now apply (pi_q _ _ _ HI).
  - now apply (pi_now _ _ _ HI).
  - now apply (pi_out _ _ _ HI).
  - eapply (pi_ipc _ _ _ HI); eauto.
  - now apply (pi_nodup _ _ _ HI).
  - eapply (pi_sep _ _ _ HI w w2); eauto.
  - now apply (pi_flags _ _ _ HI).
Qed.

Lemma do_sends_PInv ss : forall sys w,
  (w < n)%nat -> PInv lb h sys -> Forall (fun s => own (m_src M (s_link s)) = w) ss ->
  lb <= w_now (sys w) ->
  PInv lb h (sysupd sys w (do_sends M own (sys w) ss)) /\
  w_now (do_sends M own (sys w) ss) = w_now (sys w).
Proof.
  induction ss as [|s ss IH]; intros sys w Hw HI Hf Hlb.
  - simpl. split; auto. eapply PInv_ext; [|exact HI]. intros x. unfold EvSpec.sysupd.
    destruct (Nat.eqb x w) eqn:E; auto. apply Nat.eqb_eq in E. now subst.
  - inversion Hf as [|? ? H1 H2]; subst. simpl.
    destruct (do_send_PInv sys _ s Hw HI eq_refl Hlb) as [HI1 Hn1].
    set (w := own (m_src M (s_link s))) in *.
    specialize (IH (sysupd sys w (do_send M own (sys w) s)) w Hw HI1 H2).
    rewrite sysupd_same in IH. rewrite Hn1 in IH. specialize (IH Hlb) as [HI2 Hn2].
    split; auto. eapply PInv_ext; [|exact HI2]. intros x. unfold EvSpec.sysupd.
    destruct (Nat.eqb x w); auto.
Qed.

(** Popping the head event. *)
Lemma pop_PInv sys w e r s' :
  (w < n)%nat -> PInv lb h sys -> w_queue (sys w) = e :: r -> before (e_time e) h = true ->
  let s1 := W (e_time e) r (w_minipc (sys w)) (w_stopped (sys w)) s' (w_seq (sys w))
           (w_out (sys w)) (e :: w_log (sys w)) (w_past (sys w) || (e_time e <? w_now (sys w)))
           (w_lost (sys w)) in
  PInv lb h (sysupd sys w s1) /\ lb <= e_time e.
Proof.
  intros Hw HI Hq Hb s1.
  assert (Hin : In e (w_queue (sys w))) by (rewrite Hq; simpl; auto).
  pose proof (pi_sorted _ _ _ HI w Hw) as Hs. rewrite Hq in Hs.
  destruct (pi_q _ _ _ HI _ _ Hw Hin) as (Hl&Hn&Hd&Hse&Hbo).
  split; [|exact Hl].
  set (sys' := sysupd sys w s1).
  assert (Hseq : forall l, seqof sys' l = seqof sys l).
  { intros l. unfold seqof, sys', EvSpec.sysupd. destruct (Nat.eqb _ w) eqn:E; auto.
    apply Nat.eqb_eq in E. now rewrite E. }
  assert (Hqs : forall x y, In y (w_queue (sys' x)) -> In y (w_queue (sys x))).
  { intros x y. unfold sys', EvSpec.sysupd. destruct (Nat.eqb x w) eqn:E; auto.
    apply Nat.eqb_eq in E; subst x. simpl. rewrite Hq. simpl; auto. }
  assert (Hout : forall x, w_out (sys' x) = w_out (sys x)).
  { intros x. unfold sys', EvSpec.sysupd. destruct (Nat.eqb x w) eqn:E; auto.
    apply Nat.eqb_eq in E; now subst x. }
  assert (Hipc : forall x, w_minipc (sys' x) = w_minipc (sys x)).
  { intros x. unfold sys', EvSpec.sysupd. destruct (Nat.eqb x w) eqn:E; auto.
    apply Nat.eqb_eq in E; now subst x. }
  constructor.
  - intros x Hx. unfold sys', EvSpec.sysupd. destruct (Nat.eqb x w) eqn:E.
    + simpl. now inversion Hs.
    + now apply (pi_sorted _ _ _ HI).
  - intros x y Hx Hy. rewrite Hseq. destruct (pi_q _ _ _ HI _ _ Hx (Hqs _ _ Hy)) as (?&?&?&?&?).
    repeat split; auto. unfold sys', EvSpec.sysupd in *. destruct (Nat.eqb x w) eqn:E; auto.
    simpl in *. eapply sorted_min_time; [exact Hs|]. simpl; auto.
  - intros x Hx. unfold sys', EvSpec.sysupd. destruct (Nat.eqb x w) eqn:E; simpl; auto.
    now apply (pi_now _ _ _ HI).
  - intros x y Hx Hy. rewrite Hout in Hy. rewrite Hseq, Hipc. now apply (pi_out _ _ _ HI).
  - intros x m Hx. rewrite Hipc. now apply (pi_ipc _ _ _ HI).
  - intros x Hx. rewrite Hout. now apply (pi_nodup _ _ _ HI).
  - intros x w2 y z Hx Hw2 Hy Hz. rewrite Hout in Hy. eapply (pi_sep _ _ _ HI x w2); eauto.
  - intros x Hx. unfold sys', EvSpec.sysupd. destruct (Nat.eqb x w) eqn:E.
    + simpl. destruct (pi_flags _ _ _ HI w Hw) as [-> ->]. split; auto. simpl.
      apply N.ltb_ge. exact Hn.
    + now apply (pi_flags _ _ _ HI).
Qed.

Lemma wstep_inv sys w s' :
  wstep M own h (sys w) = Some s' -> PInv lb h sys -> (w < n)%nat ->
  exists e r p c st ss, w_queue (sys w) = e :: r /\ before (e_time e) h = true /\
    e_body e = Some p /\ c = m_dst M (e_link e) /\ own c = w /\
    m_handler M c (w_comp (sys w) c) (e_time e) (e_link e) p = (st, ss) /\
    s' = do_sends M own (W (e_time e) r (w_minipc (sys w)) (w_stopped (sys w))
           (upd (w_comp (sys w)) c st) (w_seq (sys w))
           (w_out (sys w)) (e :: w_log (sys w)) (w_past (sys w) || (e_time e <? w_now (sys w)))
           (w_lost (sys w))) ss.
Proof.
  intros Hst HI Hw. unfold wstep in Hst.
  destruct (w_queue (sys w)) as [|e r] eqn:Hq; [discriminate|].
  destruct (before (e_time e) h) eqn:Hb; [|discriminate].
  injection Hst as <-.
  assert (Hin : In e (w_queue (sys w))) by (rewrite Hq; simpl; auto).
  destruct (pi_q _ _ _ HI _ _ Hw Hin) as (Hl&Hn&Hd&Hse&Hbo).
  unfold exec. destruct (e_body e) as [p|] eqn:Ebd; [|congruence].
  destruct (m_handler M (m_dst M (e_link e)) (w_comp (sys w) (m_dst M (e_link e))) (e_time e) (e_link e) p) as [st ss] eqn:Eh.
  exists e, r, p, (m_dst M (e_link e)), st, ss. auto 10.
Qed.

Lemma wstep_PInv sys w s' :
  (w < n)%nat -> PInv lb h sys -> wstep M own h (sys w) = Some s' -> PInv lb h (sysupd sys w s').
Proof.
  intros Hw HI Hst.
  destruct (wstep_inv _ _ _ Hst HI Hw) as (e&r&p&c&st&ss&Hq&Hb&Ebd&->&Hd&Eh&->).
  set (c := m_dst M (e_link e)) in *.
  destruct (pop_PInv sys w e r (upd (w_comp (sys w)) c st) Hw HI Hq Hb) as [HI1 Hl].
  match type of HI1 with PInv _ _ (sysupd _ _ ?x) => set (s1 := x) in * end.
  assert (Hf : Forall (fun s => own (m_src M (s_link s)) = w) ss).
  { apply Hlinks in Eh. eapply Forall_impl; [|exact Eh]. simpl. intros a Ha. now rewrite Ha. }
  destruct (do_sends_PInv ss (sysupd sys w s1) w Hw HI1 Hf) as [HI2 _].
  - rewrite sysupd_same. exact Hl.
  - rewrite sysupd_same in HI2. eapply PInv_ext; [|exact HI2]. intros x. unfold EvSpec.sysupd.
    destruct (Nat.eqb x w); auto.
Qed.

End Step.
End Inv.
