(** The invariant of legal programs. *)
From Coq Require Import List Arith Bool Lia.
From Verif Require Import ThModel ThSpec.
Import ListNotations.

Record inv (w : world) : Prop := {
  i_n : 0 < n w;
  i_run : forall t, t < n w -> md (th w t) = Running -> act w = Some t;
  i_act : forall t, act w = Some t -> t < n w /\ md (th w t) = Running;
  i_lost : forall t, t < n w -> md (th w t) <> Lost;
  i_q : NoDup (q w);
  i_start : forall t, In (EStart t) (q w) -> t < n w /\ md (th w t) = Fresh;
  i_switch : forall t, In (ESwitch t) (q w) ->
    t < n w /\ (md (th w t) = Ready \/ exists u, md (th w t) = JoinReady u);
  i_fresh : forall t, t < n w -> md (th w t) = Fresh -> In (EStart t) (q w);
  i_rdy : forall t, t < n w -> md (th w t) = Ready -> In (ESwitch t) (q w);
  i_jrdy : forall t u, t < n w -> md (th w t) = JoinReady u -> In (ESwitch t) (q w);
  i_del : forall t, In (EDelete t) (q w) ->
    t < n w /\ md (th w t) = Ended /\ freed w t = false /\ ~ In t (subs w);
  i_freed : forall t, freed w t = true ->
    t < n w /\ md (th w t) = Ended /\ ~ In t (subs w) /\ ~ In (EDelete t) (q w);
  i_subs : forall t, In t (subs w) -> 0 < t < n w;
  i_all : forall t, 0 < t -> t < n w -> md (th w t) <> Ended -> In t (subs w);
  i_done : forall t, t < n w -> st (th w t) = SDone -> md (th w t) = Ended;
  i_ended : forall t, t < n w -> md (th w t) = Ended -> st (th w t) = SDone;
  i_can : forall t, t < n w -> st (th w t) <> SCanceled;
  i_join : forall t u, t < n w -> md (th w t) = Joining u ->
    In u (subs w) /\ md (th w u) <> Ended /\ det (th w u) = false /\ In t (jn (th w u));
  i_jn : forall t u, u < n w -> In t (jn (th w u)) -> t < n w /\ md (th w t) = Joining u;
  i_jn1 : forall u, u < n w -> jn (th w u) = [] \/ exists t, jn (th w u) = [t];
  i_ready : forall t u, t < n w -> md (th w t) = JoinReady u ->
    In u (subs w) /\ md (th w u) = Ended;
  i_uniq : forall t t' u, t < n w -> t' < n w ->
    md (th w t) = JoinReady u -> md (th w t') = JoinReady u -> t = t';
  i_main : md (th w 0) = Ended -> subs w = [];
  i_leak : forall t, t < n w -> md (th w t) = Ended ->
    freed w t = true \/ In t (subs w) \/ In (EDelete t) (q w);
  i_det0 : det (th w 0) = true
}.

Lemma inv_start : inv start.
Proof.
  constructor; simpl; intros; try lia; try tauto; try discriminate;
    repeat match goal with
    | H : ?t < 1 |- _ => assert (t = 0) by lia; subst; clear H
    end; simpl in *; try discriminate; try tauto; auto.
  - injection H as <-. simpl. auto.
  - constructor.
Qed.

(** Something is running, so the process is there. *)
Lemma main_alive : forall w t, inv w -> t < n w -> md (th w t) <> Ended -> freed w 0 = false.
Proof.
  intros w t I L N. destruct (freed w 0) eqn:F; auto. exfalso.
  destruct (i_freed w I 0 F) as (_ & E & _). pose proof (i_main w I E) as SB.
  destruct t; [contradiction|].
  pose proof (i_all w I (S t) (Nat.lt_0_succ _) L N) as IN. rewrite SB in IN. destruct IN.
Qed.

Lemma main_alive_sub : forall w t, inv w -> In t (subs w) -> freed w 0 = false.
Proof.
  intros w t I L. destruct (freed w 0) eqn:F; auto. exfalso.
  destruct (i_freed w I 0 F) as (_ & E & _). pose proof (i_main w I E) as SB.
  rewrite SB in L. destruct L.
Qed.

Lemma main_md : forall w t, inv w -> t < n w -> md (th w t) <> Ended -> md (th w 0) <> Ended.
Proof.
  intros w t I L N E. pose proof (i_main w I E) as SB.
  destruct t; [contradiction|].
  pose proof (i_all w I (S t) (Nat.lt_0_succ _) L N) as IN. rewrite SB in IN. destruct IN.
Qed.

Lemma not_freed : forall w t, inv w -> md (th w t) <> Ended -> freed w t = false.
Proof.
  intros w t I N. destruct (freed w t) eqn:F; auto. destruct (i_freed w I t F); tauto.
Qed.

Lemma sub_not_freed : forall w t, inv w -> In t (subs w) -> freed w t = false.
Proof.
  intros w t I N. destruct (freed w t) eqn:F; auto. destruct (i_freed w I t F); tauto.
Qed.

Lemma mem_in : forall t l, mem t l = true <-> In t l.
Proof.
  intros. unfold mem. rewrite existsb_exists. split.
  - intros (x & H & E). apply Nat.eqb_eq in E. subst. auto.
  - intros H. exists t. split; auto. apply Nat.eqb_refl.
Qed.

Lemma in_rm : forall x t l, In x (rm t l) <-> In x l /\ x <> t.
Proof.
  intros. unfold rm. rewrite filter_In, negb_true_iff, Nat.eqb_neq. tauto.
Qed.

Lemma put_eq : forall A (f : nat -> A) i a, put f i a i = a.
Proof. intros; unfold put; rewrite Nat.eqb_refl; auto. Qed.

Lemma put_ne : forall A (f : nat -> A) i a j, j <> i -> put f i a j = f j.
Proof. intros; unfold put. destruct (Nat.eqb_spec j i); congruence. Qed.

Lemma NoDup_snoc : forall A (l : list A) x, NoDup l -> ~ In x l -> NoDup (l ++ [x]).
Proof.
  intros A l x H N. rewrite <- (rev_involutive (l ++ [x])). apply NoDup_rev.
  rewrite rev_app_distr. simpl. constructor; [rewrite <- in_rev; auto|apply NoDup_rev; auto].
Qed.

(** Case analysis on which thread is meant. *)
Ltac cases :=
  repeat match goal with
  | H : context [put _ ?i _ ?j] |- _ =>
      let E := fresh "E" in
      destruct (Nat.eq_dec j i) as [E|E];
      [try rewrite E in *; try subst j; rewrite ?put_eq in *|rewrite (put_ne _ _ i _ j E) in *]
  | |- context [put _ ?i _ ?j] =>
      let E := fresh "E" in
      destruct (Nat.eq_dec j i) as [E|E];
      [try rewrite E in *; try subst j; rewrite ?put_eq in *|rewrite (put_ne _ _ i _ j E) in *]
  end; simpl in *.

Ltac inq :=
  repeat match goal with
  | H : In _ (_ ++ [_]) |- _ => apply in_app_or in H; destruct H as [H|[H|[]]]
  | H : In _ (rm _ _) |- _ => apply in_rm in H; destruct H
  | H : EStart _ = EStart _ |- _ => injection H as <-
  | H : ESwitch _ = ESwitch _ |- _ => injection H as <-
  | H : EDelete _ = EDelete _ |- _ => injection H as <-
  end; try discriminate.

Lemma qin : forall w e r (x : ev), q w = e :: r -> In x r -> In x (q w).
Proof. intros w e r x Q H. rewrite Q. right. auto. Qed.

Lemma qout : forall w e r (x : ev), q w = e :: r -> In x (q w) -> x <> e -> In x r.
Proof. intros w e r x Q H N. rewrite Q in H. destruct H; congruence. Qed.

Lemma qno : forall w e r, inv w -> q w = e :: r -> ~ In e r /\ NoDup r.
Proof. intros w e r I Q. pose proof (i_q w I) as D. rewrite Q in D. inversion D; auto. Qed.

Lemma qhd : forall w e r, q w = e :: r -> In e (q w).
Proof. intros w e r Q. rewrite Q. left. auto. Qed.

Lemma sw_not : forall w t, inv w -> In (ESwitch t) (q w) ->
  t < n w /\ md (th w t) <> Running /\ md (th w t) <> Fresh /\ md (th w t) <> Ended /\
  md (th w t) <> Io /\ (forall u, md (th w t) <> Joining u).
Proof.
  intros w t I H. destruct (i_switch w I t H) as (L & [E|(u & E)]); rewrite E;
    repeat split; auto; try discriminate; intros; discriminate.
Qed.

Ltac know H :=
  let P := type of H in
  lazymatch P with
  | _ /\ _ => first [know (proj1 H) | know (proj2 H)]
  | _ => match goal with K : P |- _ => fail 1 | _ => pose proof H end
  end.

(** Consequences of the invariant. *)
Ltac sat :=
  repeat match goal with
  | H : _ /\ _ |- _ => destruct H
  | Q : q ?w = ?e :: ?r, H : In ?x ?r |- _ => know (qin w e r x Q H)
  | Q : q ?w = ?e :: ?r |- _ => know (qhd w e r Q)
  | I : inv ?w, Q : q ?w = ?e :: ?r |- _ => know (qno w e r I Q)
  | H : ?t < S (n ?w), K : ?t <> n ?w |- _ =>
      match goal with L : t < n w |- _ => fail 1 | _ => assert (t < n w) by lia end
  | NJ : nobody_joins ?w ?u, L : ?t < n ?w |- _ => know (NJ t L)
  | I : inv ?w, H : act ?w = Some ?t |- _ => know (i_act w I t H)
  | I : inv ?w, H : In (EStart ?t) (q ?w) |- _ => know (i_start w I t H)
  | I : inv ?w, H : In (ESwitch ?t) (q ?w) |- _ => know (sw_not w t I H)
  | I : inv ?w, H : In (EDelete ?t) (q ?w) |- _ => know (i_del w I t H)
  | I : inv ?w, H : freed ?w ?t = true |- _ => know (i_freed w I t H)
  | I : inv ?w, H : In ?t (subs ?w) |- _ => know (i_subs w I t H)
  | I : inv ?w, L : ?t < n ?w, H : md (th ?w ?t) = Running |- _ => know (i_run w I t L H)
  | I : inv ?w, L : ?t < n ?w, H : md (th ?w ?t) = Fresh |- _ => know (i_fresh w I t L H)
  | I : inv ?w, L : ?t < n ?w, H : md (th ?w ?t) = Ready |- _ => know (i_rdy w I t L H)
  | I : inv ?w, L : ?t < n ?w, H : md (th ?w ?t) = JoinReady ?u |- _ => know (i_jrdy w I t u L H)
  | I : inv ?w, L : ?t < n ?w, H : md (th ?w ?t) = JoinReady ?u |- _ => know (i_ready w I t u L H)
  | I : inv ?w, L : ?t < n ?w, H : md (th ?w ?t) = Joining ?u |- _ => know (i_join w I t u L H)
  | I : inv ?w, L : ?t < n ?w, H : st (th ?w ?t) = SDone |- _ => know (i_done w I t L H)
  | I : inv ?w, L : ?u < n ?w, H : In ?t (jn (th ?w ?u)) |- _ => know (i_jn w I t u L H)
  | I : inv ?w, H : md (th ?w 0) = Ended |- _ => know (i_main w I H)
  | I : inv ?w, L : ?t < n ?w, H : md (th ?w ?t) = Ended |- _ => know (i_ended w I t L H)
  | I : inv ?w, L : ?t < n ?w |- _ => know (i_lost w I t L)
  | I : inv ?w, L : ?t < n ?w |- _ => know (i_can w I t L)
  end.

Ltac brk :=
  repeat match goal with
  | H : _ \/ _ |- _ => destruct H
  | H : exists _, _ |- _ => destruct H
  | H : _ /\ _ |- _ => destruct H
  end.

Ltac fin :=
  first
    [ solve [auto] | discriminate | contradiction | congruence | lia
    | match goal with |- _ /\ _ => split; fin end
    | match goal with |- ~ _ => intro; fin2 end
    | match goal with I : inv ?w, H : In (ESwitch ?t) (q ?w) |- md (th ?w ?t) = Ready \/ _ =>
        exact (proj2 (i_switch w I t H)) end
    | match goal with H : forall u, md (th ?w ?t) <> Joining u, K : md (th ?w ?t) = Joining _ |- _ =>
        destruct (H _ K) end
    | match goal with I : inv ?w, L : ?t < n ?w, H : md (th ?w ?t) = Ended |- _ ?t = true \/ _ =>
        destruct (i_leak w I t L H) as [?|[?|?]]; solve [left; fin | right; left; fin | right; right; fin] end
    | solve [left; fin] | solve [right; fin]
    | match goal with |- In _ (_ ++ [_]) => apply in_or_app; solve [left; fin | right; simpl; auto] end
    | match goal with |- In _ (rm _ _) => apply in_rm; fin end
    | match goal with Q : q ?w = ?e :: ?r |- In ?x ?r =>
        apply (qout w e r x Q); solve [auto | congruence] end
    | match goal with |- NoDup (_ ++ [_]) => apply NoDup_snoc; [auto|intro; fin2] end
    | match goal with |- exists _, _ => eexists; solve [eauto] end
    | match goal with
      I : inv ?w, A : md (th ?w ?t) = JoinReady ?u, B : md (th ?w ?t') = JoinReady ?u |- ?t = ?t' =>
        solve [apply (i_uniq w I t t' u); auto] end | solve [apply i_jn1; auto] | solve [apply i_all; auto; congruence]
    | match goal with H : ~ ?p |- _ => solve [exfalso; apply H; solve [auto | congruence | lia]] end ]
with fin2 := inq; sat; brk; subst; fin.

Ltac start I :=
  unfold set_det, set_jn, set_md, set_st, set_act, set_subs, set_th, send, free, pop;
  constructor; cbn [n th freed subs act q md st det jn]; intros.

Ltac go :=
  inq; brk; subst; inq; cases; brk; subst; cases; sat; brk; subst; sat;
  try solve [fin].

(** A thread is created. *)
Lemma inv_create : forall w me d, inv w -> act w = Some me ->
  exists w', create d w = Good w' /\ inv w'.
Proof.
  intros w me d I A. pose proof (i_act w I me A) as (Lm & Rm).
  assert (F : freed w 0 = false) by (apply (main_alive w me); auto; congruence).
  assert (M0 : md (th w 0) <> Ended) by (apply (main_md w me); auto; congruence).
  pose proof (i_n w I). pose proof (i_q w I). pose proof (i_det0 w I).
  unfold create, use. rewrite F. simpl. eexists. split; [reflexivity|].
  start I.
  all: go.
Qed.

(** A thread that has ended is joined. *)
Lemma inv_join_done : forall w me u, inv w -> act w = Some me ->
  In u (subs w) -> st (th w u) = SDone -> nobody_joins w u ->
  inv (set_subs (rm u (subs w)) (free u w)).
Proof.
  intros w me u I A S D NJ. pose proof (i_act w I me A) as (Lm & Rm).
  assert (M0 : md (th w 0) <> Ended) by (apply (main_md w me); auto; congruence).
  pose proof (i_n w I). pose proof (i_q w I). pose proof (i_det0 w I).
  pose proof (i_subs w I u S).
  start I. all: go.
Qed.

(** A thread waits for another one. *)
Lemma inv_join_wait : forall w me u, inv w -> act w = Some me ->
  In u (subs w) -> u <> me -> det (th w u) = false -> st (th w u) <> SDone -> nobody_joins w u ->
  inv (set_act None (set_md me (Joining u) (set_jn u [me] w))).
Proof.
  intros w me u I A S U DT D NJ. pose proof (i_act w I me A) as (Lm & Rm).
  assert (M0 : md (th w 0) <> Ended) by (apply (main_md w me); auto; congruence).
  pose proof (i_n w I). pose proof (i_q w I). pose proof (i_det0 w I).
  pose proof (i_subs w I u S).
  assert (md (th w u) <> Ended) by (intro; sat; congruence).
  assert (jn (th w u) = []) by
    (destruct (jn (th w u)) as [|t l] eqn:J; auto; exfalso;
     destruct (i_jn w I t u ltac:(lia) ltac:(rewrite J; left; auto)) as (L & X);
     destruct (NJ t L); contradiction).
  start I. all: go.
Qed.

(** A thread is detached. *)
Lemma inv_detach : forall w me u, inv w -> act w = Some me ->
  In u (subs w) -> nobody_joins w u -> inv (set_det u w).
Proof.
  intros w me u I A S NJ. pose proof (i_act w I me A) as (Lm & Rm).
  assert (M0 : md (th w 0) <> Ended) by (apply (main_md w me); auto; congruence).
  pose proof (i_n w I). pose proof (i_q w I). pose proof (i_det0 w I).
  pose proof (i_subs w I u S).
  start I. all: go.
Qed.

(** A thread blocks. *)
Lemma inv_io : forall w me, inv w -> act w = Some me -> inv (set_act None (set_md me Io w)).
Proof.
  intros w me I A. pose proof (i_act w I me A) as (Lm & Rm).
  assert (M0 : md (th w 0) <> Ended) by (apply (main_md w me); auto; congruence).
  pose proof (i_n w I). pose proof (i_q w I). pose proof (i_det0 w I).
  start I. all: go.
Qed.

(** A blocked thread is unblocked by the active one. *)
Lemma inv_unblock : forall w me j, inv w -> act w = Some me -> j < n w -> md (th w j) = Io ->
  inv (send (ESwitch j) (set_md j Ready w)).
Proof.
  intros w me j I A L IO. pose proof (i_act w I me A) as (Lm & Rm).
  assert (M0 : md (th w 0) <> Ended) by (apply (main_md w me); auto; congruence).
  pose proof (i_n w I). pose proof (i_q w I). pose proof (i_det0 w I).
  start I. all: go.
Qed.

(** A blocked thread is unblocked by an event. *)
Lemma inv_wake : forall w j, inv w -> act w = None -> j < n w -> md (th w j) = Io ->
  inv (set_act (Some j) (set_md j Running w)).
Proof.
  intros w j I A L IO.
  assert (M0 : md (th w 0) <> Ended) by (apply (main_md w j); auto; congruence).
  pose proof (i_n w I). pose proof (i_q w I). pose proof (i_det0 w I).
  start I. all: go.
Qed.

(** A thread starts. *)
Lemma inv_begin : forall w t r, inv w -> act w = None -> q w = EStart t :: r ->
  inv (set_act (Some t) (set_md t Running (set_st t SActive (pop w)))).
Proof.
  intros w t r I A Q.
  destruct (i_start w I t (qhd _ _ _ Q)) as (L & FR).
  assert (M0 : md (th w 0) <> Ended) by (apply (main_md w t); auto; congruence).
  pose proof (i_n w I). pose proof (i_q w I). pose proof (i_det0 w I).
  unfold pop. rewrite Q. simpl tl.
  start I. all: go.
Qed.

(** A blocked thread goes on. *)
Lemma inv_switch : forall w t r, inv w -> act w = None -> q w = ESwitch t :: r ->
  md (th w t) = Ready ->
  inv (set_act (Some t) (set_md t Running (pop w))).
Proof.
  intros w t r I A Q RD.
  destruct (i_switch w I t (qhd _ _ _ Q)) as (L & _).
  assert (M0 : md (th w 0) <> Ended) by (apply (main_md w t); auto; congruence).
  pose proof (i_n w I). pose proof (i_q w I). pose proof (i_det0 w I).
  unfold pop. rewrite Q. simpl tl.
  start I. all: go.
Qed.

(** A joining thread goes on. *)
Lemma inv_switch_join : forall w t u r, inv w -> act w = None -> q w = ESwitch t :: r ->
  md (th w t) = JoinReady u ->
  inv (set_subs (rm u (subs w)) (free u (set_act (Some t) (set_md t Running (pop w))))).
Proof.
  intros w t u r I A Q RD.
  destruct (i_switch w I t (qhd _ _ _ Q)) as (L & _).
  assert (M0 : md (th w 0) <> Ended) by (apply (main_md w t); auto; congruence).
  pose proof (i_n w I). pose proof (i_q w I). pose proof (i_det0 w I).
  destruct (i_ready w I t u L RD) as (S & EN).
  assert (NR : forall t', t' < n w -> md (th w t') = JoinReady u -> t' = t) by
    (intros t' L' X; apply (i_uniq w I t' t u); auto).
  pose proof (i_subs w I u S).
  unfold pop. rewrite Q. simpl tl.
  start I. all: go.
Qed.

(** A detached thread that has ended is deleted. *)
Lemma inv_delete : forall w t r, inv w -> act w = None -> q w = EDelete t :: r ->
  inv (free t (pop w)).
Proof.
  intros w t r I A Q.
  destruct (i_del w I t (qhd _ _ _ Q)) as (L & EN & FR & SB).
  pose proof (i_n w I). pose proof (i_q w I). pose proof (i_det0 w I).
  unfold pop. rewrite Q. simpl tl.
  start I. all: go.
Qed.

(** The end of a thread: detached, *)
Lemma inv_end_det : forall w me, inv w -> act w = Some me -> det (th w me) = true ->
  (me = 0 -> subs w = []) ->
  inv (set_act None (set_jn me [] (set_md me Ended (set_st me SDone
        (send (EDelete me) (set_subs (rm me (subs w)) w)))))).
Proof.
  intros w me I A DT M. pose proof (i_act w I me A) as (Lm & Rm).
  assert (M0 : md (th w 0) <> Ended) by (apply (main_md w me); auto; congruence).
  pose proof (i_n w I). pose proof (i_q w I). pose proof (i_det0 w I).
  assert (NJ : forall t, t < n w -> md (th w t) <> Joining me) by (intros t L J; sat; congruence).
  assert (freed w me = false) by (apply not_freed; auto; congruence).
  start I. all: go.
  rewrite (M eq_refl). auto.
Qed.

(** not detached and nobody is joining it, *)
Lemma inv_end : forall w me, inv w -> act w = Some me -> det (th w me) = false ->
  jn (th w me) = [] ->
  inv (set_act None (set_jn me [] (set_md me Ended (set_st me SDone w)))).
Proof.
  intros w me I A DT J. pose proof (i_act w I me A) as (Lm & Rm).
  assert (M0 : md (th w 0) <> Ended) by (apply (main_md w me); auto; congruence).
  pose proof (i_n w I). pose proof (i_q w I). pose proof (i_det0 w I).
  assert (NJ : forall t, t < n w -> md (th w t) <> Joining me) by
    (intros t L X; destruct (i_join w I t me L X) as (_ & _ & _ & K); rewrite J in K; destruct K).
  assert (me <> 0) by (intro; subst; congruence).
  assert (In me (subs w)) by (apply (i_all w I); auto; [lia|congruence]).
  start I. all: go.
  exfalso. eapply NJ; eauto.
Qed.

(** or a thread is waiting for it. *)
Lemma inv_end_join : forall w me j, inv w -> act w = Some me -> det (th w me) = false ->
  jn (th w me) = [j] ->
  inv (set_act None (set_jn me [] (send (ESwitch j) (set_md j (JoinReady me)
        (set_md me Ended (set_st me SDone w)))))).
Proof.
  intros w me j I A DT J. pose proof (i_act w I me A) as (Lm & Rm).
  assert (M0 : md (th w 0) <> Ended) by (apply (main_md w me); auto; congruence).
  pose proof (i_n w I). pose proof (i_q w I). pose proof (i_det0 w I).
  destruct (i_jn w I j me Lm ltac:(rewrite J; left; auto)) as (Lj & Mj).
  assert (NJ : forall t, t < n w -> md (th w t) = Joining me -> t = j) by
    (intros t L X; destruct (i_join w I t me L X) as (_ & _ & _ & K); rewrite J in K;
     destruct K as [K|[]]; auto).
  assert (me <> 0) by (intro; subst; congruence).
  assert (j <> me) by (intro; subst; congruence).
  assert (In me (subs w)) by (apply (i_all w I); auto; [lia|congruence]).
  start I. all: go.
Qed.
