(* Invariants of the MPI matching queue. *)
From Coq Require Import List Arith ZArith Bool Lia.
From Verif Require Import MqModel ListFacts.
Import ListNotations.

Definition before {A} (l : list A) (x y : A) : Prop :=
  exists a b c, l = a ++ x :: b ++ y :: c.

Lemma before_app : forall A (l k : list A) x y, before l x y -> before (l ++ k) x y.
Proof.
  intros A l k x y (a & b & c & ->). exists a, b, (c ++ k).
  now rewrite <- app_assoc; cbn [app]; rewrite <- app_assoc.
Qed.

Lemma before_last : forall A (l : list A) x z, In x l -> before (l ++ [z]) x z.
Proof.
  intros A l x z H. apply in_split in H. destruct H as (a & b & ->).
  exists a, b, []. now rewrite <- app_assoc.
Qed.

Lemma before_inv : forall A (l : list A) x y z,
  before (l ++ [z]) x y -> before l x y \/ (y = z /\ In x l).
Proof.
  intros A l x y z (a & b & c & E).
  destruct c as [|c0 c] using rev_ind.
  - right. replace (a ++ x :: b ++ [y]) with ((a ++ x :: b) ++ [y]) in E
      by (now rewrite <- app_assoc).
    apply app_inj_tail in E. destruct E as (-> & ->). split; [reflexivity|].
    apply in_or_app; right; left; reflexivity.
  - left. exists a, b, c.
    replace (a ++ x :: b ++ y :: c ++ [c0]) with ((a ++ x :: b ++ y :: c) ++ [c0]) in E.
    + apply app_inj_tail in E. tauto.
    + rewrite <- app_assoc. cbn [app]. now rewrite <- app_assoc.
Qed.

Lemma before_in_l : forall A (l : list A) x y, before l x y -> In x l.
Proof. intros A l x y (a & b & c & ->). apply in_or_app; right; left; reflexivity. Qed.

Lemma before_in_r : forall A (l : list A) x y, before l x y -> In y l.
Proof.
  intros A l x y (a & b & c & ->). apply in_or_app; right; right.
  apply in_or_app; right; left; reflexivity.
Qed.

Lemma before_filter : forall A (f : A -> bool) l x y,
  before l x y -> f x = true -> f y = true -> before (filter f l) x y.
Proof.
  intros A f l x y (a & b & c & ->) Hx Hy.
  exists (filter f a), (filter f b), (filter f c).
  rewrite filter_app. cbn [filter]. rewrite Hx, filter_app. cbn [filter].
  now rewrite Hy.
Qed.

Lemma before_split : forall A (l : list A) x y a b, NoDup l ->
  before l x y -> l = a ++ y :: b -> In x a.
Proof.
  intros A l x y a b ND (p & q & r & E) E2.
  replace (p ++ x :: q ++ y :: r) with ((p ++ x :: q) ++ y :: r) in E
    by (now rewrite <- app_assoc).
  assert (a = p ++ x :: q /\ b = r) as (-> & _).
  { rewrite E in E2. rewrite E in ND. clear E.
    revert a E2 ND. generalize (p ++ x :: q) as u. clear.
    induction u as [|u0 u IH]; intros a E ND; destruct a as [|a0 a]; cbn [app] in *.
    - inversion E. split; reflexivity.
    - injection E as -> E. subst r. inversion ND as [|? ? N1 N2]; subst.
      exfalso. apply N1. apply in_or_app; right; left; reflexivity.
    - injection E as -> E. subst b. inversion ND as [|? ? N1 N2]; subst.
      exfalso. apply N1. apply in_or_app; right; left; reflexivity.
    - injection E as -> E. inversion ND as [|? ? N1 N2]; subst.
      destruct (IH a E N2) as (-> & ->). split; reflexivity. }
  apply in_or_app; right; left; reflexivity.
Qed.

Lemma take_first_some : forall A (f : A -> bool) l x rest,
  take_first f l = Some (x, rest) ->
  exists a b, l = a ++ x :: b /\ rest = a ++ b /\ f x = true
              /\ forall y, In y a -> f y = false.
Proof.
  induction l as [|h t IH]; cbn [take_first]; intros x rest H; [discriminate|].
  destruct (f h) eqn:E.
  - injection H as -> ->. exists [], rest. repeat split; auto. intros y [].
  - destruct (take_first f t) as [[y t']|] eqn:E2; [|discriminate].
    injection H as <- <-. destruct (IH _ _ eq_refl) as (a & b & -> & -> & F & G).
    exists (h :: a), b. repeat split; auto. intros z [<- | Hz]; auto.
Qed.

Lemma take_first_none : forall A (f : A -> bool) l,
  take_first f l = None -> forall y, In y l -> f y = false.
Proof.
  induction l as [|h t IH]; cbn [take_first]; intros H y Hy; [destruct Hy|].
  destruct (f h) eqn:E; [discriminate|].
  destruct (take_first f t) as [[? ?]|]; [discriminate|].
  destruct Hy as [<- | Hy]; auto.
Qed.

Definition msg_dec (x y : msg) : {x = y} + {x <> y}.
Proof. decide equality; try apply Nat.eq_dec; try apply Z.eq_dec. decide equality. Defined.

Definition req_dec (x y : req) : {x = y} + {x <> y}.
Proof. decide equality; try apply Nat.eq_dec; try apply Z.eq_dec. Defined.

Definition free {A} (dec : forall x y : A, {x = y} + {x <> y}) (u : list A) (x : A) : bool :=
  if in_dec dec x u then false else true.

Lemma free_true : forall A dec (u : list A) x, free dec u x = true <-> ~ In x u.
Proof. intros. unfold free. destruct (in_dec dec x u); split; auto; try discriminate; tauto. Qed.

Lemma free_false : forall A dec (u : list A) x, free dec u x = false <-> In x u.
Proof. intros. unfold free. destruct (in_dec dec x u); split; auto; try discriminate; tauto. Qed.

Lemma filter_free_snoc : forall A dec (u l : list A) z,
  ~ In z u -> filter (free dec u) (l ++ [z]) = filter (free dec u) l ++ [z].
Proof.
  intros A dec u l z H. rewrite filter_app. cbn [filter].
  now rewrite (proj2 (free_true A dec u z) H).
Qed.

Lemma filter_free_take : forall A dec (u l a b : list A) x,
  NoDup l -> filter (free dec u) l = a ++ x :: b ->
  filter (free dec (u ++ [x])) l = a ++ b.
Proof.
  induction l as [|h t IH]; intros a b x ND E; cbn [filter] in *.
  - destruct a; discriminate.
  - inversion ND as [|? ? N1 N2]; subst.
    destruct (free dec u h) eqn:F.
    + destruct a as [|a0 a]; cbn [app] in E; injection E as -> E.
      * rewrite (proj2 (free_false A dec (u ++ [x]) x))
          by (apply in_or_app; right; left; reflexivity).
        cbn [app]. rewrite <- E. apply filter_ext_in. intros y Hy.
        assert (y <> x) by congruence.
        destruct (free dec u y) eqn:G.
        -- apply free_true in G. apply free_true. intros K. apply in_app_or in K.
           destruct K as [K|[K|[]]]; congruence.
        -- apply free_false in G. apply free_false. apply in_or_app; auto.
      * assert (a0 <> x).
        { intros ->. apply N1. assert (In x (filter (free dec u) t)).
          { rewrite E. apply in_or_app; right; left; reflexivity. }
          apply filter_In in H. tauto. }
        apply free_true in F. rewrite (proj2 (free_true A dec (u ++ [x]) a0)).
        -- cbn [app]. f_equal. now apply IH.
        -- intros K. apply in_app_or in K. destruct K as [K|[K|[]]]; congruence.
    + apply free_false in F. rewrite (proj2 (free_false A dec (u ++ [x]) h))
        by (apply in_or_app; auto).
      now apply IH.
Qed.

(* ---- matching ---- *)
Record minv (q : mq) : Prop := {
  mi_ndr : NoDup (q_ready q);
  mi_ndp : NoDup (q_posts q);
  mi_unexp : q_unexp q = filter (free msg_dec (map snd (q_log q))) (q_ready q);
  mi_posted : q_posted q = filter (free req_dec (map fst (q_log q))) (q_posts q);
  mi_apart : forall r m, In r (q_posted q) -> In m (q_unexp q) -> matches r m = false;
  mi_log : forall r m, In (r, m) (q_log q) ->
    In r (q_posts q) /\ In m (q_ready q) /\ matches r m = true;
  mi_ndl1 : NoDup (map fst (q_log q));
  mi_ndl2 : NoDup (map snd (q_log q));
  mi_order : forall l1 r m l2, q_log q = l1 ++ (r, m) :: l2 ->
    (forall r1, before (q_posts q) r1 r -> matches r1 m = true ->
                exists m', In (r1, m') l1)
    /\ (forall m1, before (q_ready q) m1 m -> matches r m1 = true ->
                exists r', In (r', m1) l1)
}.

Lemma snoc_split : forall A (l l1 l2 : list A) z x,
  l ++ [z] = l1 ++ x :: l2 ->
  (exists l2', l2 = l2' ++ [z] /\ l = l1 ++ x :: l2') \/ (l2 = [] /\ x = z /\ l = l1).
Proof.
  intros A l l1 l2 z x E. destruct l2 as [|w l2] using rev_ind.
  - right. apply app_inj_tail in E. destruct E as (-> & ->). auto.
  - left. exists l2.
    replace (l1 ++ x :: l2 ++ [w]) with ((l1 ++ x :: l2) ++ [w]) in E
      by (now rewrite <- app_assoc).
    apply app_inj_tail in E. destruct E as (-> & ->). auto.
Qed.

Lemma nodup_snoc : forall A (l : list A) x, NoDup l -> ~ In x l -> NoDup (l ++ [x]).
Proof.
  intros A l x H H1. apply nodup_app; auto.
  - constructor; [intros []|constructor].
  - intros y Hy [<- | []]. auto.
Qed.

Lemma minv_arrival : forall q m, minv q -> ~ In m (q_ready q) -> minv (arrival_match q m).
Proof.
  intros q m I Hm.
  assert (Hml : ~ In m (map snd (q_log q))).
  { intros K. apply in_map_iff in K. destruct K as ([r m'] & E & K). cbn [snd] in E.
    subst. apply Hm. apply (mi_log q I _ _ K). }
  unfold arrival_match.
  destruct (take_first (fun r => matches r m) (q_posted q)) as [[r rest]|] eqn:T.
  - apply take_first_some in T. destruct T as (a & b & Ep & -> & Hmt & Hbef).
    assert (Hr : In r (q_posted q)) by (rewrite Ep; apply in_or_app; right; left; reflexivity).
    assert (Hr2 : In r (q_posts q) /\ ~ In r (map fst (q_log q))).
    { rewrite (mi_posted q I) in Hr. apply filter_In in Hr. destruct Hr as (Hr & F).
      apply free_true in F. auto. }
    assert (NDp : NoDup (q_posted q))
      by (rewrite (mi_posted q I); apply NoDup_filter, (mi_ndp q I)).
    constructor; cbn [q_ready q_posts q_unexp q_log q_posted].
    + apply nodup_snoc; [apply (mi_ndr q I) | exact Hm].
    + apply (mi_ndp q I).
    + rewrite map_app. cbn [map snd].
      rewrite (mi_unexp q I). symmetry.
      rewrite (filter_free_take msg msg_dec (map snd (q_log q)) (q_ready q ++ [m])
                 (filter (free msg_dec (map snd (q_log q))) (q_ready q)) [] m).
      * apply app_nil_r.
      * apply nodup_snoc; [apply (mi_ndr q I) | exact Hm].
      * now apply filter_free_snoc.
    + rewrite map_app. cbn [map fst]. symmetry. apply filter_free_take.
      * apply (mi_ndp q I).
      * rewrite <- (mi_posted q I). exact Ep.
    + intros r0 m0 H H0. apply (mi_apart q I); auto.
      rewrite Ep. apply in_app_or in H. apply in_or_app. cbn [In]. tauto.
    + intros r0 m0 H. apply in_app_or in H. destruct H as [H | [H|[]]].
      * destruct (mi_log q I _ _ H) as (A & B & C). repeat split; auto.
        apply in_or_app; auto.
      * injection H as <- <-. repeat split; try tauto.
        apply in_or_app; right; left; reflexivity.
    + rewrite map_app. apply nodup_snoc; [apply (mi_ndl1 q I) | tauto].
    + rewrite map_app. apply nodup_snoc; [apply (mi_ndl2 q I) | tauto].
    + intros l1 r0 m0 l2 E. apply snoc_split in E.
      destruct E as [(l2' & -> & E) | (-> & E & <-)].
      * assert (In (r0, m0) (q_log q))
          by (rewrite E; apply in_or_app; right; left; reflexivity).
        destruct (mi_order q I _ _ _ _ E) as (O1 & O2). split; [exact O1|].
        intros m1 B M. apply before_inv in B. destruct B as [B | (-> & _)]; auto.
        exfalso. apply Hm. apply (mi_log q I _ _ H).
      * injection E as -> ->. split.
        -- intros r1 B M.
           destruct (free req_dec (map fst (q_log q)) r1) eqn:F.
           ++ exfalso. assert (B2 : before (q_posted q) r1 r).
              { rewrite (mi_posted q I). apply before_filter; auto.
                apply free_true. tauto. }
              pose proof (before_split _ _ _ _ _ _ NDp B2 Ep) as K.
              rewrite (Hbef _ K) in M. discriminate.
           ++ apply free_false in F. apply in_map_iff in F.
              destruct F as ([r2 m'] & E & F). cbn [fst] in E. subst. eauto.
        -- intros m1 B M. apply before_inv in B.
           assert (K : In m1 (q_ready q)).
           { destruct B as [B | (_ & B)]; auto. now apply before_in_l in B. }
           destruct (free msg_dec (map snd (q_log q)) m1) eqn:F.
           ++ exfalso. rewrite (mi_apart q I r m1) in M; [discriminate|auto|].
              rewrite (mi_unexp q I). apply filter_In. auto.
           ++ apply free_false in F. apply in_map_iff in F.
              destruct F as ([r2 m'] & E & F). cbn [snd] in E. subst. eauto.
  - pose proof (take_first_none _ _ _ T) as Hno.
    constructor; cbn [q_ready q_posts q_unexp q_log q_posted].
    + apply nodup_snoc; [apply (mi_ndr q I) | exact Hm].
    + apply (mi_ndp q I).
    + rewrite filter_free_snoc by exact Hml. now rewrite (mi_unexp q I).
    + apply (mi_posted q I).
    + intros r0 m0 H H0. apply in_app_or in H0. destruct H0 as [H0|[<-|[]]].
      * now apply (mi_apart q I).
      * now apply Hno.
    + intros r0 m0 H. destruct (mi_log q I _ _ H) as (A & B & C). repeat split; auto.
      apply in_or_app; auto.
    + apply (mi_ndl1 q I).
    + apply (mi_ndl2 q I).
    + intros l1 r0 m0 l2 E.
      assert (In (r0, m0) (q_log q))
        by (rewrite E; apply in_or_app; right; left; reflexivity).
      destruct (mi_order q I _ _ _ _ E) as (O1 & O2). split; [exact O1|].
      intros m1 B M. apply before_inv in B. destruct B as [B | (-> & _)]; auto.
      exfalso. apply Hm. apply (mi_log q I _ _ H).
Qed.

Lemma minv_post : forall q r, minv q -> ~ In r (q_posts q) -> minv (post_recv q r).
Proof.
  intros q r I Hr.
  assert (Hrl : ~ In r (map fst (q_log q))).
  { intros K. apply in_map_iff in K. destruct K as ([r' m] & E & K). cbn [fst] in E.
    subst. apply Hr. apply (mi_log q I _ _ K). }
  unfold post_recv.
  destruct (take_first (matches r) (q_unexp q)) as [[m rest]|] eqn:T.
  - apply take_first_some in T. destruct T as (a & b & Ep & -> & Hmt & Hbef).
    assert (Hm : In m (q_unexp q)) by (rewrite Ep; apply in_or_app; right; left; reflexivity).
    assert (Hm2 : In m (q_ready q) /\ ~ In m (map snd (q_log q))).
    { rewrite (mi_unexp q I) in Hm. apply filter_In in Hm. destruct Hm as (Hm & F).
      apply free_true in F. auto. }
    assert (NDp : NoDup (q_unexp q))
      by (rewrite (mi_unexp q I); apply NoDup_filter, (mi_ndr q I)).
    constructor; cbn [q_ready q_posts q_unexp q_log q_posted].
    + apply (mi_ndr q I).
    + apply nodup_snoc; [apply (mi_ndp q I) | exact Hr].
    + rewrite map_app. cbn [map snd]. symmetry. apply filter_free_take.
      * apply (mi_ndr q I).
      * rewrite <- (mi_unexp q I). exact Ep.
    + rewrite map_app. cbn [map fst].
      rewrite (mi_posted q I). symmetry.
      rewrite (filter_free_take req req_dec (map fst (q_log q)) (q_posts q ++ [r])
                 (filter (free req_dec (map fst (q_log q))) (q_posts q)) [] r).
      * apply app_nil_r.
      * apply nodup_snoc; [apply (mi_ndp q I) | exact Hr].
      * now apply filter_free_snoc.
    + intros r0 m0 H H0. apply (mi_apart q I); auto.
      rewrite Ep. apply in_app_or in H0. apply in_or_app. cbn [In]. tauto.
    + intros r0 m0 H. apply in_app_or in H. destruct H as [H | [H|[]]].
      * destruct (mi_log q I _ _ H) as (A & B & C). repeat split; auto.
        apply in_or_app; auto.
      * injection H as <- <-. repeat split; try tauto.
        apply in_or_app; right; left; reflexivity.
    + rewrite map_app. apply nodup_snoc; [apply (mi_ndl1 q I) | tauto].
    + rewrite map_app. apply nodup_snoc; [apply (mi_ndl2 q I) | tauto].
    + intros l1 r0 m0 l2 E. apply snoc_split in E.
      destruct E as [(l2' & -> & E) | (-> & E & <-)].
      * assert (In (r0, m0) (q_log q))
          by (rewrite E; apply in_or_app; right; left; reflexivity).
        destruct (mi_order q I _ _ _ _ E) as (O1 & O2). split; [|exact O2].
        intros r1 B M. apply before_inv in B. destruct B as [B | (-> & _)]; auto.
        exfalso. apply Hr. apply (mi_log q I _ _ H).
      * injection E as -> ->. split.
        -- intros r1 B M. apply before_inv in B.
           assert (K : In r1 (q_posts q)).
           { destruct B as [B | (_ & B)]; auto. now apply before_in_l in B. }
           destruct (free req_dec (map fst (q_log q)) r1) eqn:F.
           ++ exfalso. rewrite (mi_apart q I r1 m) in M; [discriminate| |auto].
              rewrite (mi_posted q I). apply filter_In. auto.
           ++ apply free_false in F. apply in_map_iff in F.
              destruct F as ([r2 m'] & E & F). cbn [fst] in E. subst. eauto.
        -- intros m1 B M.
           destruct (free msg_dec (map snd (q_log q)) m1) eqn:F.
           ++ exfalso. assert (B2 : before (q_unexp q) m1 m).
              { rewrite (mi_unexp q I). apply before_filter; auto.
                apply free_true. tauto. }
              pose proof (before_split _ _ _ _ _ _ NDp B2 Ep) as K.
              rewrite (Hbef _ K) in M. discriminate.
           ++ apply free_false in F. apply in_map_iff in F.
              destruct F as ([r2 m'] & E & F). cbn [snd] in E. subst. eauto.
  - pose proof (take_first_none _ _ _ T) as Hno.
    constructor; cbn [q_ready q_posts q_unexp q_log q_posted].
    + apply (mi_ndr q I).
    + apply nodup_snoc; [apply (mi_ndp q I) | exact Hr].
    + apply (mi_unexp q I).
    + rewrite filter_free_snoc by exact Hrl. now rewrite (mi_posted q I).
    + intros r0 m0 H H0. apply in_app_or in H. destruct H as [H|[<-|[]]].
      * now apply (mi_apart q I).
      * now apply Hno.
    + intros r0 m0 H. destruct (mi_log q I _ _ H) as (A & B & C). repeat split; auto.
      apply in_or_app; auto.
    + apply (mi_ndl1 q I).
    + apply (mi_ndl2 q I).
    + intros l1 r0 m0 l2 E.
      assert (In (r0, m0) (q_log q))
        by (rewrite E; apply in_or_app; right; left; reflexivity).
      destruct (mi_order q I _ _ _ _ E) as (O1 & O2). split; [|exact O2].
      intros r1 B M. apply before_inv in B. destruct B as [B | (-> & _)]; auto.
      exfalso. apply Hr. apply (mi_log q I _ _ H).
Qed.

(* states that agree on the matching fields *)
Lemma minv_ext : forall q q', minv q ->
  q_unexp q' = q_unexp q -> q_posted q' = q_posted q -> q_ready q' = q_ready q ->
  q_posts q' = q_posts q -> q_log q' = q_log q -> minv q'.
Proof.
  intros q q' I E1 E2 E3 E4 E5.
  constructor; rewrite ?E1, ?E2, ?E3, ?E4, ?E5; apply I.
Qed.

(* ---- flow of messages: headers, gets, matching order ---- *)
Record finv (q : mq) : Prop := {
  fi_ready : forall m, In m (q_ready q) -> In m (q_handled q);
  fi_gets : forall m, In m (q_gets q) ->
     In m (q_handled q) /\ ms_prot m = Eager1 /\ ~ In m (q_ready q);
  fi_ndg : NoDup (q_gets q);
  fi_done : forall m, In m (q_handled q) -> In m (q_ready q) \/ In m (q_gets q);
  fi_order : forall m1 m2, In m1 (q_handled q) -> In m2 (q_ready q) ->
     ms_src m1 = ms_src m2 -> ms_seq m1 < ms_seq m2 -> ms_prot m1 <> Eager1 ->
     before (q_ready q) m1 m2;
  fi_probe : forall p m, In p (q_probes q) -> In m (q_unexp q) ->
     matches p m = true -> ms_prot m = Eager1
}.

Lemma arrival_ready : forall q m, q_ready (arrival_match q m) = q_ready q ++ [m].
Proof.
  intros. unfold arrival_match.
  destruct (take_first _ _) as [[? ?]|]; reflexivity.
Qed.
Lemma arrival_same : forall q m,
  q_next (arrival_match q m) = q_next q /\ q_held (arrival_match q m) = q_held q
  /\ q_gets (arrival_match q m) = q_gets q /\ q_handled (arrival_match q m) = q_handled q
  /\ q_probes (arrival_match q m) = q_probes q /\ q_posts (arrival_match q m) = q_posts q
  /\ q_probed (arrival_match q m) = q_probed q.
Proof.
  intros. unfold arrival_match.
  destruct (take_first _ _) as [[? ?]|]; repeat split.
Qed.
Lemma arrival_unexp : forall q m m', In m' (q_unexp (arrival_match q m)) ->
  In m' (q_unexp q) \/ m' = m.
Proof.
  intros q m m'. unfold arrival_match.
  destruct (take_first _ _) as [[? ?]|]; cbn [q_unexp]; auto.
  intros H. apply in_app_or in H. cbn [In] in H. intuition.
Qed.
Lemma post_same : forall q r,
  q_next (post_recv q r) = q_next q /\ q_held (post_recv q r) = q_held q
  /\ q_gets (post_recv q r) = q_gets q /\ q_handled (post_recv q r) = q_handled q
  /\ q_probes (post_recv q r) = q_probes q /\ q_ready (post_recv q r) = q_ready q
  /\ q_posts (post_recv q r) = q_posts q ++ [r].
Proof.
  intros. unfold post_recv.
  destruct (take_first _ _) as [[? ?]|]; repeat split.
Qed.
Lemma post_unexp : forall q r m, In m (q_unexp (post_recv q r)) -> In m (q_unexp q).
Proof.
  intros q r m. unfold post_recv.
  destruct (take_first _ _) as [[? ?]|] eqn:T; cbn [q_unexp]; auto.
  apply take_first_some in T. destruct T as (a & b & -> & -> & _).
  intros H. apply in_app_or in H. apply in_or_app. cbn [In]. tauto.
Qed.

Lemma handle_same : forall q m,
  q_next (handle q m) = q_next q /\ q_held (handle q m) = q_held q
  /\ q_handled (handle q m) = q_handled q ++ [m] /\ q_posts (handle q m) = q_posts q.
Proof.
  intros. unfold handle. cbv zeta. destruct (ms_prot m).
  - unfold notify. cbn [q_next q_held q_handled q_posts].
    match goal with |- context [arrival_match ?q m] =>
      destruct (arrival_same q m) as (-> & -> & _ & -> & _ & -> & _) end. repeat split.
  - repeat split.
  - unfold notify. cbn [q_next q_held q_handled q_posts].
    match goal with |- context [arrival_match ?q m] =>
      destruct (arrival_same q m) as (-> & -> & _ & -> & _ & -> & _) end. repeat split.
Qed.

Lemma handle_inv : forall q m, minv q -> finv q ->
  (forall m', In m' (q_handled q) -> ms_src m' = ms_src m -> ms_seq m' < ms_seq m) ->
  minv (handle q m) /\ finv (handle q m).
Proof.
  intros q m I F L.
  assert (Hm : ~ In m (q_handled q)).
  { intros K. specialize (L m K eq_refl). lia. }
  assert (Hmr : ~ In m (q_ready q)) by (intros K; apply Hm, (fi_ready q F), K).
  assert (G : forall m1 m2, In m1 (q_handled q ++ [m]) -> In m2 (q_ready q) ->
     ms_src m1 = ms_src m2 -> ms_seq m1 < ms_seq m2 -> In m1 (q_handled q)).
  { intros m1 m2 H H0 H1 H2. apply in_app_or in H. destruct H as [H|[<-|[]]]; auto.
    apply (fi_ready q F) in H0. specialize (L m2 H0 (eq_sym H1)). lia. }
  assert (P : ms_prot m = Eager1 \/ ms_prot m <> Eager1)
    by (destruct (ms_prot m); auto; right; discriminate).
  destruct P as [P | P].
  { unfold handle. cbv zeta. rewrite P.
      split; [eapply minv_ext; [exact I|..]; reflexivity|].
      constructor; cbn [q_ready q_handled q_gets q_probes q_unexp].
      - intros m' H. apply in_or_app. left. now apply (fi_ready q F).
      - intros m' H. apply in_app_or in H. destruct H as [H|[<-|[]]].
        + destruct (fi_gets q F m' H) as (A & B & C). repeat split; auto.
          apply in_or_app; auto.
        + repeat split; auto. apply in_or_app; right; left; reflexivity.
      - apply nodup_snoc; [apply (fi_ndg q F)|]. intros K.
        apply Hm. apply (fi_gets q F m K).
      - intros m' H. apply in_app_or in H. destruct H as [H|[<-|[]]].
        + destruct (fi_done q F m' H); auto. right. apply in_or_app; auto.
        + right. apply in_or_app; right; left; reflexivity.
      - intros m1 m2 H H0 H1 H2 H3. eapply (fi_order q F); eauto.
      - apply (fi_probe q F). }
  set (q1 := Mq (q_next q) (q_held q) (q_unexp q) (q_posted q) (q_probes q)
              (q_gets q) (q_handled q ++ [m]) (q_ready q) (q_posts q)
              (q_log q) (q_probed q)).
  assert (Eq : handle q m = notify (arrival_match q1 m) m).
  { unfold handle. cbv zeta. destruct (ms_prot m); try reflexivity. congruence. }
  rewrite Eq.
  assert (I1 : minv (arrival_match q1 m))
    by (apply minv_arrival; [eapply minv_ext; [exact I|..]; reflexivity|exact Hmr]).
  split; [eapply minv_ext; [exact I1|..]; reflexivity|].
  destruct (arrival_same q1 m) as (E1 & E2 & E3 & E4 & E5 & E6 & E7).
  constructor; unfold notify; cbn [q_ready q_handled q_gets q_probes q_unexp];
    rewrite ?(arrival_ready q1 m), ?E3, ?E4, ?E5; unfold q1 at 1;
    cbn [q_ready q_handled q_gets q_probes].
  - intros m' H. apply in_app_or in H. destruct H as [H|[<-|[]]].
    + apply in_or_app; left; apply (fi_ready q F m' H).
    + apply in_or_app; right; left; reflexivity.
  - intros m' H; destruct (fi_gets q F m' H) as (A & B & C); repeat split; auto.
    + apply in_or_app; auto.
    + intros K; apply in_app_or in K; destruct K as [K|[<-|[]]]; [auto|congruence].
  - apply (fi_ndg q F).
  - intros m' H; apply in_app_or in H; destruct H as [H|[<-|[]]].
    + destruct (fi_done q F m' H); auto; left; apply in_or_app; auto.
    + left; apply in_or_app; right; left; reflexivity.
  - intros m1 m2 H H0 H1 H2 H3. apply in_app_or in H0. destruct H0 as [H0|[<-|[]]].
    + apply before_app, (fi_order q F); eauto.
    + apply before_last. apply in_app_or in H. destruct H as [H|[<-|[]]]; [|lia].
      destruct (fi_done q F m1 H) as [K|K]; auto. apply (fi_gets q F) in K. tauto.
  - intros p m' H H0 H1. apply filter_In in H. destruct H as (H & N).
    apply arrival_unexp in H0. destruct H0 as [H0| ->].
    + apply (fi_probe q F p m' H H0 H1).
    + rewrite H1 in N. discriminate.
Qed.

Lemma nth_split_drop : forall A (l : list A) i x, nth_error l i = Some x ->
  l = firstn i l ++ x :: skipn (S i) l.
Proof.
  induction l as [|h t IH]; intros [|i] x H; cbn in H; try discriminate.
  - injection H as ->. reflexivity.
  - cbn [firstn skipn app]. f_equal. now apply IH.
Qed.

Lemma payload_inv : forall q i, minv q -> finv q -> minv (payload q i) /\ finv (payload q i).
Proof.
  intros q i I F. unfold payload. destruct (nth_error (q_gets q) i) as [m|] eqn:E; [|auto].
  pose proof (nth_split_drop _ _ _ _ E) as Es.
  assert (Hg : In m (q_gets q)) by (eapply nth_error_In; eauto).
  destruct (fi_gets q F m Hg) as (Hh & Hp & Hr).
  set (q1 := Mq _ _ _ _ _ _ _ _ _ _ _).
  assert (I1 : minv (arrival_match q1 m)).
  { apply minv_arrival; [eapply minv_ext; [exact I|..]; reflexivity|exact Hr]. }
  split; [exact I1|].
  assert (Sub : forall y, In y (firstn i (q_gets q) ++ skipn (S i) (q_gets q)) ->
                In y (q_gets q) /\ y <> m).
  { intros y Hy. split.
    - rewrite Es. apply in_app_or in Hy. apply in_or_app. cbn [In]. tauto.
    - pose proof (fi_ndg q F) as ND. rewrite Es in ND. apply NoDup_remove in ND.
      intros ->. tauto. }
  destruct (arrival_same q1 m) as (E1 & E2 & E3 & E4 & E5 & E6 & E7).
  constructor; rewrite ?(arrival_ready q1 m), ?E3, ?E4, ?E5; unfold q1;
    cbn [q_ready q_handled q_gets q_probes].
  - intros m' H. apply in_app_or in H. destruct H as [H|[<-|[]]]; auto.
    now apply (fi_ready q F).
  - intros m' H. destruct (Sub m' H) as (H1 & H2).
    destruct (fi_gets q F m' H1) as (A & B & C). repeat split; auto.
    intros K. apply in_app_or in K. destruct K as [K|[K|[]]]; congruence.
  - pose proof (fi_ndg q F) as ND. rewrite Es in ND. apply NoDup_remove in ND. tauto.
  - intros m' H. destruct (fi_done q F m' H) as [K|K].
    + left. apply in_or_app; auto.
    + rewrite Es in K. apply in_app_or in K. destruct K as [K|[<-|K]].
      * right. apply in_or_app; auto.
      * left. apply in_or_app; right; left; reflexivity.
      * right. apply in_or_app; auto.
  - intros m1 m2 H H0 H1 H2 H3. apply in_app_or in H0. destruct H0 as [H0|[<-|[]]].
    + apply before_app, (fi_order q F); auto.
    + apply before_last. destruct (fi_done q F m1 H) as [K|K]; auto.
      apply (fi_gets q F) in K. tauto.
  - intros p m' H H0 H1. apply arrival_unexp in H0. destruct H0 as [H0| ->]; auto.
    apply (fi_probe q F p m'); auto.
Qed.

Lemma post_inv : forall q r, minv q -> finv q -> ~ In r (q_posts q) ->
  minv (post_recv q r) /\ finv (post_recv q r).
Proof.
  intros q r I F Hr. split; [now apply minv_post|].
  destruct (post_same q r) as (E1 & E2 & E3 & E4 & E5 & E6 & E7).
  constructor; rewrite ?E3, ?E4, ?E5, ?E6; try apply F.
  intros p m H H0 H1. apply post_unexp in H0. apply (fi_probe q F p m); auto.
Qed.

Lemma probe_inv : forall q p, minv q -> finv q ->
  minv (post_probe q p) /\ finv (post_probe q p).
Proof.
  intros q p I F. unfold post_probe.
  destruct (take_first (matches p) (q_unexp q)) as [[m rest]|] eqn:T.
  - split; [eapply minv_ext; [exact I|..]; reflexivity|].
    constructor; cbn; apply F.
  - split; [eapply minv_ext; [exact I|..]; reflexivity|].
    constructor; cbn [q_ready q_handled q_gets q_probes q_unexp]; try apply F.
    intros p0 m H H0 H1. apply in_app_or in H. destruct H as [H|[<-|[]]].
    + apply (fi_probe q F p0 m); auto.
    + rewrite (take_first_none _ _ _ T m H0) in H1. discriminate.
Qed.

(* ---- sequence numbers ---- *)
Definition of_src (s : nat) (l : list msg) := filter (fun m => ms_src m =? s) l.

Inductive sorted_from : nat -> list msg -> Prop :=
| sf_nil : forall k, sorted_from k []
| sf_cons : forall k m t, k <= ms_seq m -> sorted_from (S (ms_seq m)) t ->
            sorted_from k (m :: t).

Lemma sorted_weaken : forall k l j, sorted_from k l -> j <= k -> sorted_from j l.
Proof. intros k l j H L. inversion H; subst; constructor; auto; lia. Qed.

Lemma sorted_ge : forall l k m, sorted_from k l -> In m l -> k <= ms_seq m.
Proof.
  induction l as [|h t IH]; intros k m H Hm; [destruct Hm|].
  inversion H; subst. destruct Hm as [<- | Hm]; auto.
  specialize (IH _ _ H4 Hm). lia.
Qed.

Lemma hold_sorted : forall m l k, sorted_from k l -> k <= ms_seq m -> sorted_from k (hold m l).
Proof.
  induction l as [|h t IH]; intros k H L; cbn [hold].
  - repeat constructor. auto.
  - inversion H; subst. destruct (ms_seq m <? ms_seq h) eqn:E.
    + apply Nat.ltb_lt in E. constructor; auto. constructor; auto.
    + apply Nat.ltb_ge in E. destruct (ms_seq m =? ms_seq h) eqn:E2; auto.
      apply Nat.eqb_neq in E2. constructor; auto. apply IH; auto. lia.
Qed.

Lemma hold_in : forall m l x, In x (hold m l) -> x = m \/ In x l.
Proof.
  induction l as [|h t IH]; intros x H; cbn [hold] in *.
  - destruct H as [<- | []]; auto.
  - destruct (ms_seq m <? ms_seq h); [destruct H as [<-|H]; auto|].
    destruct (ms_seq m =? ms_seq h); [auto|].
    destruct H as [<-|H]; [right; left; auto|].
    destruct (IH _ H); auto. right; right; auto.
Qed.

Lemma hold_keeps : forall m l x, In x l -> In x (hold m l).
Proof.
  induction l as [|h t IH]; intros x H; [destruct H|]; cbn [hold].
  destruct (ms_seq m <? ms_seq h); [right; auto|].
  destruct (ms_seq m =? ms_seq h); [auto|].
  destruct H as [<-|H]; [left; auto|right; auto].
Qed.

Lemma hold_adds : forall m l, (forall x, In x l -> ms_seq x <> ms_seq m) -> In m (hold m l).
Proof.
  induction l as [|h t IH]; intros H; cbn [hold]; [left; auto|].
  destruct (ms_seq m <? ms_seq h); [left; auto|].
  destruct (ms_seq m =? ms_seq h) eqn:E.
  - apply Nat.eqb_eq in E. exfalso. apply (H h (or_introl eq_refl)). auto.
  - right. apply IH. intros x Hx. apply H. right; auto.
Qed.

(* The state of sender [s]'s stream, with [l] for the held messages and [lo]
   a lower bound of their numbers. *)
Record sinv (arr : list msg) (q : mq) (s : nat) (l : list msg) (lo : nat) : Prop := {
  si_num : map ms_seq (of_src s (q_handled q)) = seq 0 (q_next q s);
  si_sort : sorted_from lo l;
  si_src : forall m, In m l -> ms_src m = s /\ In m arr;
  si_all : forall m, In m arr -> ms_src m = s -> In m (q_handled q) \/ In m l
}.

Record qinv (arr : list msg) (q : mq) : Prop := {
  qi_m : minv q;
  qi_f : finv q;
  qi_arr : forall m, In m (q_handled q) -> In m arr;
  qi_s : forall s, sinv arr q s (q_held q s) (S (q_next q s))
}.

Lemma of_src_snoc : forall s l m,
  of_src s (l ++ [m]) = of_src s l ++ (if ms_src m =? s then [m] else []).
Proof. intros. unfold of_src. rewrite filter_app. reflexivity. Qed.

Lemma handled_lt : forall q s m,
  map ms_seq (of_src s (q_handled q)) = seq 0 (q_next q s) ->
  In m (q_handled q) -> ms_src m = s -> ms_seq m < q_next q s.
Proof.
  intros q s m H Hm E.
  assert (K : In (ms_seq m) (map ms_seq (of_src s (q_handled q)))).
  { apply in_map. unfold of_src. apply filter_In. split; auto. apply Nat.eqb_eq. auto. }
  rewrite H in K. apply in_seq in K. lia.
Qed.

Lemma upd_same : forall A (f : nat -> A) i x, upd f i x i = x.
Proof. intros. unfold upd. now rewrite Nat.eqb_refl. Qed.
Lemma upd_other : forall A (f : nat -> A) i x j, j <> i -> upd f i x j = f j.
Proof. intros. unfold upd. destruct (Nat.eqb_spec j i); congruence. Qed.

(* handling the next message of sender [s] *)
Lemma step_handle : forall arr q m l lo,
  minv q -> finv q -> (forall x, In x (q_handled q) -> In x arr) -> In m arr ->
  (forall t, t <> ms_src m -> sinv arr q t (q_held q t) (S (q_next q t))) ->
  map ms_seq (of_src (ms_src m) (q_handled q)) = seq 0 (q_next q (ms_src m)) ->
  ms_seq m = q_next q (ms_src m) ->
  sorted_from lo l ->
  (forall x, In x l -> ms_src x = ms_src m /\ In x arr) ->
  (forall x, In x arr -> ms_src x = ms_src m -> In x (q_handled q) \/ x = m \/ In x l) ->
  let q' := advance (handle q m) (ms_src m) in
  minv q' /\ finv q' /\ (forall x, In x (q_handled q') -> In x arr) /\
  (forall t, t <> ms_src m -> sinv arr q' t (q_held q' t) (S (q_next q' t))) /\
  q_next q' (ms_src m) = S (ms_seq m) /\ q_held q' = q_held q /\
  sinv arr q' (ms_src m) l lo.
Proof.
  intros arr q m l lo I F HA Hm HO HN HS HL HL2 HX q'.
  assert (HI := handle_inv q m I F).
  destruct HI as (I1 & F1).
  { intros m' Hm' E. rewrite HS. eapply handled_lt; eauto. }
  destruct (handle_same q m) as (E1 & E2 & E3 & E4).
  assert (Eh : q_handled q' = q_handled q ++ [m]) by exact E3.
  assert (Ed : q_held q' = q_held q) by exact E2.
  assert (En : q_next q' = upd (q_next q) (ms_src m) (S (q_next q (ms_src m)))).
  { unfold q', advance. cbn [q_next]. rewrite E1. reflexivity. }
  split; [eapply minv_ext; [exact I1|..]; reflexivity|].
  split; [constructor; unfold q', advance; cbn; apply F1|].
  split.
  { rewrite Eh. intros x H. apply in_app_or in H. destruct H as [H|[<-|[]]]; auto. }
  split.
  { intros t Ht. destruct (HO t Ht) as [A1 A2 A3 A4]. rewrite Ed, En.
    rewrite upd_other by exact Ht.
    constructor; auto.
    - rewrite Eh, En, upd_other by exact Ht. rewrite of_src_snoc.
      destruct (Nat.eqb_spec (ms_src m) t); [congruence|]. rewrite app_nil_r. auto.
    - intros x K1 K2. rewrite Eh. destruct (A4 x K1 K2); auto. left. apply in_or_app; auto. }
  split; [rewrite En, upd_same; congruence|].
  split; [exact Ed|].
  constructor; auto.
  - rewrite Eh, En, upd_same, of_src_snoc, Nat.eqb_refl, map_app, HN.
    cbn [map]. rewrite HS. rewrite seq_S. reflexivity.
  - intros x K1 K2. rewrite Eh. destruct (HX x K1 K2) as [K|[->|K]]; auto.
    + left. apply in_or_app; auto.
    + left. apply in_or_app; right; left; reflexivity.
Qed.

Lemma set_held_qinv : forall arr q s l,
  minv q -> finv q -> (forall x, In x (q_handled q) -> In x arr) ->
  (forall t, t <> s -> sinv arr q t (q_held q t) (S (q_next q t))) ->
  sinv arr q s l (S (q_next q s)) ->
  qinv arr (set_held q s l).
Proof.
  intros arr q s l I F HA HO HS. constructor.
  - eapply minv_ext; [exact I|..]; reflexivity.
  - constructor; cbn; apply F.
  - exact HA.
  - intros t. unfold set_held. cbn [q_held q_next q_handled].
    destruct (Nat.eq_dec t s) as [->|N].
    + rewrite upd_same. destruct HS. constructor; auto.
    + rewrite upd_other by exact N. destruct (HO t N). constructor; auto.
Qed.

Lemma drain_inv : forall l arr q s,
  minv q -> finv q -> (forall x, In x (q_handled q) -> In x arr) ->
  (forall t, t <> s -> sinv arr q t (q_held q t) (S (q_next q t))) ->
  sinv arr q s l (q_next q s) ->
  qinv arr (drain q s l).
Proof.
  induction l as [|m t IH]; intros arr q s I F HA HO HS; cbn [drain].
  - apply set_held_qinv; auto. destruct HS. constructor; auto. constructor.
  - destruct HS as [S1 S2 S3 S4]. inversion S2 as [|k m' t' HK HT]; subst.
    destruct (S3 m (or_introl eq_refl)) as (Es & Ha).
    destruct (ms_seq m <=? q_next q s) eqn:E.
    + apply Nat.leb_le in E. assert (Eq : ms_seq m = q_next q s) by lia. subst s.
      assert (SH := step_handle arr q m t (S (ms_seq m)) I F HA Ha HO S1 Eq HT).
      destruct SH as (I1 & F1 & HA1 & HO1 & En & Ed & HS1).
      * intros x Hx. apply S3. right; auto.
      * intros x K1 K2. destruct (S4 x K1 K2) as [K|[K|K]]; auto.
      * apply IH; auto. rewrite En. exact HS1.
    + apply Nat.leb_gt in E. apply set_held_qinv; auto. constructor; auto.
      constructor; auto.
Qed.

Definition key (m : msg) : nat * nat := (ms_src m, ms_seq m).

Lemma incoming_inv : forall arr q m, qinv arr q ->
  ~ In (key m) (map key arr) ->
  exists q', incoming q m = Some q' /\ qinv (arr ++ [m]) q' /\ q_posts q' = q_posts q.
Proof.
  intros arr q m [I F HA HS] Hm.
  set (arr' := arr ++ [m]).
  assert (HA' : forall x, In x (q_handled q) -> In x arr')
    by (intros; apply in_or_app; auto).
  assert (Ha : In m arr') by (apply in_or_app; right; left; reflexivity).
  assert (HO : forall t, t <> ms_src m -> sinv arr' q t (q_held q t) (S (q_next q t))).
  { intros t Ht. destruct (HS t) as [A1 A2 A3 A4]. constructor; auto.
    - intros x Hx. destruct (A3 x Hx). split; auto. apply in_or_app; auto.
    - intros x Hx E. apply in_app_or in Hx. destruct Hx as [Hx|[<-|[]]]; auto; congruence. }
  destruct (HS (ms_src m)) as [S1 S2 S3 S4].
  unfold incoming. cbv zeta.
  destruct (ms_seq m =? q_next q (ms_src m)) eqn:E.
  - apply Nat.eqb_eq in E.
    assert (SH := step_handle arr' q m (q_held q (ms_src m)) (S (q_next q (ms_src m)))
                    I F HA' Ha HO S1 E S2).
    destruct SH as (I1 & F1 & HA1 & HO1 & En & Ed & HS1).
    { intros x Hx. destruct (S3 x Hx). split; auto. apply in_or_app; auto. }
    { intros x Hx Ex. apply in_app_or in Hx. destruct Hx as [Hx|[<-|[]]]; auto.
      destruct (S4 x Hx Ex); auto. }
    eexists. split; [reflexivity|].
    set (q' := advance (handle q m) (ms_src m)) in *.
    split.
    + apply drain_inv; auto. rewrite En, Ed, E. exact HS1.
    + assert (P : forall l q s, q_posts (drain q s l) = q_posts q).
      { clear. induction l as [|m t IH]; intros q s; cbn [drain]; [reflexivity|].
        destruct (ms_seq m <=? q_next q s); [|reflexivity].
        rewrite IH. cbn. apply (handle_same q m). }
      rewrite P. unfold q'. cbn. apply (handle_same q m).
  - apply Nat.eqb_neq in E.
    destruct (ms_seq m <? q_next q (ms_src m)) eqn:E2.
    + apply Nat.ltb_lt in E2. exfalso. apply Hm.
      assert (K : In (ms_seq m) (map ms_seq (of_src (ms_src m) (q_handled q)))).
      { rewrite S1. apply in_seq. lia. }
      apply in_map_iff in K. destruct K as (x & Ex & K).
      unfold of_src in K. apply filter_In in K. destruct K as (K & Es).
      apply Nat.eqb_eq in Es. apply in_map_iff. exists x. split; auto.
      unfold key. congruence.
    + apply Nat.ltb_ge in E2. eexists. split; [reflexivity|]. split; [|reflexivity].
      apply set_held_qinv; auto. constructor; auto.
      * apply hold_sorted; auto. lia.
      * intros x Hx. apply hold_in in Hx. destruct Hx as [->|Hx]; auto.
        destruct (S3 x Hx). split; auto. apply in_or_app; auto.
      * intros x Hx Ex. apply in_app_or in Hx. destruct Hx as [Hx|[<-|[]]].
        -- destruct (S4 x Hx Ex); auto. right. now apply hold_keeps.
        -- right. apply hold_adds. intros y Hy Ey. apply Hm. apply in_map_iff.
           exists y. destruct (S3 y Hy) as (Y1 & Y2). split; auto. unfold key. congruence.
Qed.

Fixpoint arrivals (ops : list op) : list msg :=
  match ops with
  | [] => []
  | Arrive m :: t => m :: arrivals t
  | _ :: t => arrivals t
  end.

Fixpoint posted_by (ops : list op) : list req :=
  match ops with
  | [] => []
  | Post r :: t => r :: posted_by t
  | _ :: t => posted_by t
  end.

Lemma run_inv : forall ops arr q, qinv arr q ->
  NoDup (map key (arr ++ arrivals ops)) -> NoDup (q_posts q ++ posted_by ops) ->
  exists q', mq_run q ops = Some q' /\ qinv (arr ++ arrivals ops) q'
             /\ q_posts q' = q_posts q ++ posted_by ops.
Proof.
  induction ops as [|o t IH]; intros arr q Q N1 N2; cbn [mq_run arrivals posted_by] in *.
  - rewrite !app_nil_r. eauto.
  - destruct o as [m|i|r|p]; cbn [mq_op].
    + assert (Hm : ~ In (key m) (map key arr)).
      { rewrite map_app in N1. cbn [map] in N1. apply NoDup_remove_2 in N1.
        intros K. apply N1. apply in_or_app; auto. }
      destruct (incoming_inv arr q m Q Hm) as (q' & E & Q' & P). rewrite E.
      replace (arr ++ m :: arrivals t) with ((arr ++ [m]) ++ arrivals t) in *
        by (now rewrite <- app_assoc).
      rewrite <- P in N2. destruct (IH _ _ Q' N1 N2) as (q2 & R & Q2 & P2).
      exists q2. rewrite P2, P. auto.
    + destruct Q as [I F HA HS].
      destruct (payload_inv q i I F) as (I1 & F1).
      assert (E : q_next (payload q i) = q_next q /\ q_held (payload q i) = q_held q
                  /\ q_handled (payload q i) = q_handled q /\ q_posts (payload q i) = q_posts q).
      { unfold payload. destruct (nth_error (q_gets q) i) as [m|]; [|auto].
        match goal with |- context [arrival_match ?q m] =>
          destruct (arrival_same q m) as (-> & -> & _ & -> & _ & -> & _) end. auto. }
      destruct E as (E1 & E2 & E3 & E4). rewrite <- E4 in N2.
      destruct (IH arr (payload q i)) as (q2 & R & Q2 & P2); auto.
      * constructor; auto; rewrite ?E1, ?E2, ?E3; auto.
        intros s. destruct (HS s). rewrite ?E1, ?E2. constructor; rewrite ?E1, ?E3; auto.
      * exists q2. rewrite P2, E4. auto.
    + destruct Q as [I F HA HS].
      assert (Hr : ~ In r (q_posts q)).
      { apply NoDup_remove_2 in N2. intros K. apply N2. apply in_or_app; auto. }
      destruct (post_inv q r I F Hr) as (I1 & F1).
      destruct (post_same q r) as (E1 & E2 & E3 & E4 & E5 & E6 & E7).
      destruct (IH arr (post_recv q r)) as (q2 & R & Q2 & P2); auto.
      * constructor; auto; rewrite ?E1, ?E2, ?E4; auto.
        intros s. destruct (HS s). rewrite ?E1, ?E2. constructor; rewrite ?E1, ?E4; auto.
      * rewrite E7, <- app_assoc. exact N2.
      * exists q2. rewrite P2, E7, <- app_assoc. auto.
    + destruct Q as [I F HA HS].
      destruct (probe_inv q p I F) as (I1 & F1).
      assert (E : q_next (post_probe q p) = q_next q /\ q_held (post_probe q p) = q_held q
              /\ q_handled (post_probe q p) = q_handled q
              /\ q_posts (post_probe q p) = q_posts q).
      { unfold post_probe. destruct (take_first _ _) as [[? ?]|]; auto. }
      destruct E as (E1 & E2 & E3 & E4). rewrite <- E4 in N2.
      destruct (IH arr (post_probe q p)) as (q2 & R & Q2 & P2); auto.
      * constructor; auto; rewrite ?E1, ?E2, ?E3; auto.
        intros s. destruct (HS s). rewrite ?E1, ?E2. constructor; rewrite ?E1, ?E3; auto.
      * exists q2. rewrite P2, E4. auto.
Qed.

Lemma mq0_inv : qinv [] mq0.
Proof.
  constructor.
  - constructor; cbn; try constructor; try (intros; tauto).
    all: destruct l1; discriminate.
  - constructor; cbn; try constructor; try (intros; tauto).
  - intros m [].
  - intros s. constructor; cbn; auto; try constructor; intros; tauto.
Qed.

Theorem queue_inv : forall ops, NoDup (map key (arrivals ops)) -> NoDup (posted_by ops) ->
  exists q, mq_run mq0 ops = Some q /\ qinv (arrivals ops) q /\ q_posts q = posted_by ops.
Proof.
  intros ops N1 N2. destruct (run_inv ops [] mq0 mq0_inv) as (q & R & Q & P); auto.
  exists q. auto.
Qed.
