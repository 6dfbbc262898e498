(** Roles that touch disjoint parts of the shared buffer behave as if each had a
    buffer of its own. *)
From Coq Require Import List Arith Lia Bool.
From Verif Require Import RdModel RdProof ShModel.
Import ListNotations.

Section Sim.
Context {T Msg : Type}.
Variable s : sched (nat -> T) Msg.
Variable owner : nat -> nat.
Variable F : nat -> nat -> Prop.
Variable mem : nat -> nat -> T.

(** Actions of role [v] read and write only inside [F v]; roles of one rank have
    disjoint parts. *)
Record local : Prop := {
  lc_out : forall r v b b', v < sc_np s -> sc_to s r v <> None ->
    (forall i, F v i -> b i = b' i) -> sc_out s r v b = sc_out s r v b';
  lc_in : forall r v b b' m, v < sc_np s -> sc_from s r v <> None ->
    (forall i, F v i -> b i = b' i) -> forall i, F v i -> sc_in s r v b m i = sc_in s r v b' m i;
  lc_frame : forall r v b m i, v < sc_np s -> sc_from s r v <> None -> ~ F v i -> sc_in s r v b m i = b i;
  lc_disj : forall v w i, v < sc_np s -> w < sc_np s -> owner v = owner w -> F v i -> F w i -> v = w;
  lc_pre : forall r v b, sc_pre s r v b = b;
  lc_post : forall r v b, sc_post s r v b = b;
  lc_init : forall v i, v < sc_np s -> F v i -> mem (owner v) i = sc_init s v i
}.
Hypothesis Hl : local.

Definition sameloc (l : loc unit) (l' : loc (nat -> T)) : Prop :=
  l_rnd l = l_rnd l' /\ l_open l = l_open l' /\ l_sent l = l_sent l' /\ l_rcvd l = l_rcvd l'.

Definition hsim (h : shcfg T Msg) (c : rcfg (nat -> T) Msg) : Prop :=
  (forall v, sameloc (h_ctl h v) (r_loc c v)) /\ h_net h = r_net c /\
  forall v i, v < sc_np s -> F v i -> h_mem h (owner v) i = l_mem (r_loc c v) i.

Lemma rset_eq : forall St (f : nat -> loc St) p l q, rset f p l q = if q =? p then l else f q.
Proof. reflexivity. Qed.

Lemma hset_id : forall (f : nat -> nat -> T) p q, hset f p (f p) q = f q.
Proof. intros f p q. unfold hset. destruct (Nat.eqb_spec q p) as [->|]; reflexivity. Qed.

Lemma hsim_step : forall h h' c, hsim h c -> hstep s owner h h' -> exists c', rstep s c c' /\ hsim h' c'.
Proof.
  intros h h' c (S1 & S2 & S3) Hs.
  destruct Hs as [h v l Hv Hc Hr Ho | h v l q Hv Hc Ho Hs Ht | h v l q m n1 n2 Hv Hc Ho Hr Hf Hn
                 | h v l Hv Hc Ho H1 H2]; destruct (S1 v) as (C1 & C2 & C3 & C4); rewrite Hc in *.
  - eexists. split; [eapply r_enter; [exact Hv|reflexivity|congruence|congruence]|].
    split; [|split; [exact S2|]]; cbn [h_ctl h_mem h_net r_loc r_net].
    + intros w. rewrite !rset_eq. destruct (Nat.eqb_spec w v) as [->|]; [|apply S1].
      repeat split; cbn; congruence.
    + intros w i Hw Hi. rewrite (lc_pre Hl). rewrite hset_id. rewrite !rset_eq.
      destruct (Nat.eqb_spec w v) as [->|]; [|apply S3; assumption].
      cbn [l_mem]. rewrite (lc_pre Hl). apply S3; assumption.
  - eexists. split; [eapply r_send; [exact Hv|reflexivity|congruence|congruence|rewrite <- C1; exact Ht]|].
    split; [|split]; cbn [h_ctl h_mem h_net r_loc r_net].
    + intros w. rewrite !rset_eq. destruct (Nat.eqb_spec w v) as [->|]; [|apply S1].
      repeat split; cbn; congruence.
    + rewrite S2, C1. f_equal. f_equal. rewrite <- C1. apply (lc_out Hl); [exact Hv|congruence|].
      intros i Hi. apply S3; assumption.
    + intros w i Hw Hi. rewrite !rset_eq. destruct (Nat.eqb_spec w v) as [->|]; apply S3; assumption.
  - eexists. split; [eapply r_recv; [exact Hv|reflexivity|congruence|congruence|rewrite <- C1; exact Hf
                                    |rewrite <- C1, <- S2; exact Hn]|].
    split; [|split]; cbn [h_ctl h_mem h_net r_loc r_net].
    + intros w. rewrite !rset_eq. destruct (Nat.eqb_spec w v) as [->|]; [|apply S1].
      repeat split; cbn; congruence.
    + reflexivity.
    + intros w i Hw Hi. rewrite !rset_eq. unfold hset. destruct (Nat.eqb_spec w v) as [->|Hne].
      * rewrite Nat.eqb_refl. cbn [l_mem]. rewrite <- C1. apply (lc_in Hl); try assumption; [congruence|].
        intros j Hj. apply S3; assumption.
      * destruct (Nat.eqb_spec (owner w) (owner v)) as [He|He]; [|apply S3; assumption].
        rewrite (lc_frame Hl); try assumption; [|congruence|].
        -- rewrite <- He. apply S3; assumption.
        -- intros Hfi. apply Hne. apply (lc_disj Hl w v i); assumption.
  - eexists. split; [eapply r_leave; [exact Hv|reflexivity|congruence| |]|].
    + rewrite <- C1. intros H. rewrite <- C3. apply H1. exact H.
    + rewrite <- C1. intros H. rewrite <- C4. apply H2. exact H.
    + split; [|split; [exact S2|]]; cbn [h_ctl h_mem h_net r_loc r_net].
      * intros w. rewrite !rset_eq. destruct (Nat.eqb_spec w v) as [->|]; [|apply S1].
        repeat split; cbn; congruence.
      * intros w i Hw Hi. rewrite (lc_post Hl). rewrite hset_id. rewrite !rset_eq.
        destruct (Nat.eqb_spec w v) as [->|]; [|apply S3; assumption].
        cbn [l_mem]. rewrite (lc_post Hl). apply S3; assumption.
Qed.

Lemma hsim_exec : forall n h, hexec s owner mem n h -> exists c, rexec s n c /\ hsim h c.
Proof.
  induction 1 as [|n h h' H (c & IH1 & IH2) Hs].
  - exists (rinit s). split; [apply rx0|]. split; [|split; [reflexivity|]].
    + intros v. repeat split; reflexivity.
    + intros v i Hv Hi. cbn. apply (lc_init Hl); assumption.
  - destruct (hsim_step h h' c IH2 Hs) as (c' & H1 & H2). exists c'. split; [|exact H2].
    eapply rxS; [exact IH1|exact H1].
Qed.

(** What the roles' own buffers can do the shared one can do as well. *)
Lemma hsim_enabled : forall h c c', hsim h c -> rstep s c c' -> exists h', hstep s owner h h'.
Proof.
  intros h c c' (S1 & S2 & S3) Hs.
  destruct Hs as [c v l Hv Hc Hr Ho | c v l q Hv Hc Ho Hs Ht | c v l q m n1 n2 Hv Hc Ho Hr Hf Hn
                 | c v l Hv Hc Ho H1 H2]; destruct (S1 v) as (C1 & C2 & C3 & C4); rewrite Hc in *.
  - eexists. eapply (h_enter s owner h v); [exact Hv|reflexivity|congruence|congruence].
  - eexists. eapply (h_send s owner h v); [exact Hv|reflexivity|congruence|congruence|rewrite C1; exact Ht].
  - eexists. eapply (h_recv s owner h v); [exact Hv|reflexivity|congruence|congruence|rewrite C1; exact Hf|].
    rewrite C1, S2. exact Hn.
  - eexists. eapply (h_leave s owner h v); [exact Hv|reflexivity|congruence| |].
    + rewrite C1. intros H. rewrite C3. apply H1. exact H.
    + rewrite C1. intros H. rewrite C4. apply H2. exact H.
Qed.

(** Memory outside all parts of a rank's roles is never written. *)
Lemma hexec_frame : forall n h, hexec s owner mem n h ->
  forall p i, (forall v, v < sc_np s -> owner v = p -> ~ F v i) -> h_mem h p i = mem p i.
Proof.
  induction 1 as [|n h h' H IH Hs]; intros p i Hi; [reflexivity|].
  destruct Hs as [h v l Hv Hc Hr Ho | h v l q Hv Hc Ho Hs Ht | h v l q m n1 n2 Hv Hc Ho Hr Hf Hn
                 | h v l Hv Hc Ho H1 H2]; cbn [h_mem]; try (apply IH; exact Hi).
  - rewrite (lc_pre Hl), hset_id. apply IH; exact Hi.
  - unfold hset. destruct (Nat.eqb_spec p (owner v)) as [->|]; [|apply IH; exact Hi].
    rewrite (lc_frame Hl); [apply IH; exact Hi|exact Hv|congruence|]. apply Hi; [exact Hv|reflexivity].
  - rewrite (lc_post Hl), hset_id. apply IH; exact Hi.
Qed.

Hypothesis Hm : matched s.
Hypothesis Hn : no_race s.

Theorem shared_result : forall n h v i, hexec s owner mem n h -> v < sc_np s -> F v i ->
  l_rnd (h_ctl h v) = sc_nr s -> h_mem h (owner v) i = smem s (sc_nr s) v i.
Proof.
  intros n h v i H Hv Hi Hr. destruct (hsim_exec n h H) as (c & Hx & S1 & S2 & S3).
  rewrite S3 by assumption. rewrite (rounds_result s Hm Hn n c v Hx Hv); [reflexivity|].
  rewrite <- Hr. symmetry. apply (S1 v).
Qed.

Theorem shared_progress : forall n h, hexec s owner mem n h ->
  (forall v, v < sc_np s -> l_rnd (h_ctl h v) = sc_nr s) \/ exists h', hstep s owner h h'.
Proof.
  intros n h H. destruct (hsim_exec n h H) as (c & Hx & Hsim).
  destruct (rounds_progress s Hm Hn n c Hx) as [Hd|(c' & Hc)].
  - left. intros v Hv. rewrite <- (Hd v Hv). apply Hsim.
  - right. exact (hsim_enabled h c c' Hsim Hc).
Qed.

Theorem shared_bounded : forall n h, hexec s owner mem n h -> n <= 4 * sc_nr s * sc_np s.
Proof.
  intros n h H. destruct (hsim_exec n h H) as (c & Hx & _). exact (rounds_bounded s Hm Hn n c Hx).
Qed.
End Sim.
