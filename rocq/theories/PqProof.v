From Coq Require Import List Arith Bool Lia.
From Verif Require Import PqModel PqSpec.
Import ListNotations.

Lemma set_eq : forall A (f : nat -> A) k v, set f k v k = v.
Proof. intros. unfold set. rewrite Nat.eqb_refl. auto. Qed.
Lemma set_ne : forall A (f : nat -> A) k v x, x <> k -> set f k v x = f x.
Proof. intros. unfold set. apply Nat.eqb_neq in H. rewrite H. auto. Qed.
Lemma causes_app : forall t l r, causes t (l ++ r) = causes t l ++ causes t r.
Proof. intros. unfold causes. apply flat_map_app. Qed.
Lemma in_drop : forall x t l, In x (drop t l) <-> In x l /\ x <> t.
Proof. intros. unfold drop. rewrite filter_In, negb_true_iff, Nat.eqb_neq. tauto. Qed.
Lemma drop_notin : forall t l, ~ In t l -> drop t l = l.
Proof.
  induction l; simpl; intros; auto. destruct (Nat.eqb_spec a t); simpl; [exfalso; auto|].
  f_equal. apply IHl. auto.
Qed.
Lemma drop_nodup : forall t l, NoDup l -> NoDup (drop t l).
Proof. intros. apply NoDup_filter. auto. Qed.
Lemma cut_causes : forall k (l : list ev) e r (t : nat), cut k l = Some (e, r) ->
  exists u v, l = u ++ e :: v /\ r = u ++ v.
Proof.
  induction k; destruct l; simpl; intros; try discriminate.
  - injection H as <- <-. exists [], l. auto.
  - destruct (cut k l) as [[y r']|] eqn:C; try discriminate. injection H as <- <-.
    destruct (IHk l y r' t C) as (u & v & -> & ->). exists (e :: u), v. auto.
Qed.
Lemma first_none : forall n s, first_of n s = None <-> forall c, c < n -> p_q s c = [].
Proof.
  intros n s. unfold first_of. assert (G : forall l, fold_right (fun c r => match p_q s c with i :: l => Some (c, i, l) | [] => r end) None l = None <->
     forall c, In c l -> p_q s c = []).
  { induction l; simpl. split; auto; contradiction. destruct (p_q s a) eqn:E.
    - rewrite IHl. split; intros. destruct H0; [subst; auto|auto]. auto.
    - split; [discriminate|]. intros. rewrite (H a) in E by auto. discriminate. }
  rewrite G. split; intros; apply H. apply in_seq. lia. apply in_seq in H0. lia.
Qed.
Lemma first_some : forall n s c i l, first_of n s = Some (c, i, l) -> c < n /\ p_q s c = i :: l.
Proof.
  intros n s c i l. unfold first_of. intros H.
  assert (G : forall L, fold_right (fun c r => match p_q s c with i :: l => Some (c, i, l) | [] => r end) None L = Some (c, i, l) ->
     In c L /\ p_q s c = i :: l).
  { induction L; simpl; intros; [discriminate|]. destruct (p_q s a) eqn:E.
    - destruct (IHL H0). auto.
    - injection H0 as <- <- <-. auto. }
  destruct (G _ H) as [G1 G2]. apply in_seq in G1. split; [lia|auto].
Qed.

Section P.
Variable n : nat.

Definition thr_ok (J : nat -> Prop) (s : pq) (t : nat) : Prop :=
  match p_st s t with
  | Blocked (WTimer k) => causes t (p_ev s) = [ByTimer k]
  | Blocked WStart => causes t (p_ev s) = [ByStart]
  | Blocked (WJoin x) => J x /\
      ((causes t (p_ev s) = [] /\ p_jn s x = [t] /\ p_st s x <> Done /\ p_st s x <> Gone) \/
       (causes t (p_ev s) = [ByJoin x] /\ p_jn s x = [] /\ p_st s x = Done))
  | Blocked (WCq c tm) => causes t (p_ev s) = [] /\ In t (p_pend s c) /\ p_q s c = [] /\ (tm = true -> In (Tmo t (p_bc s t)) (p_ev s))
  | Blocked (WAny tm) => causes t (p_ev s) = [] /\ In t (p_any s) /\ (forall c, c < n -> p_q s c = []) /\ (tm = true -> In (Tmo t (p_bc s t)) (p_ev s))
  | Gone => causes t (p_ev s) = [] /\ J t
  | _ => causes t (p_ev s) = []
  end.

Record inv (J : nat -> Prop) (s : pq) : Prop := Inv {
  i_thr : forall t, thr_ok J s t;
  i_act : forall t, p_act s = Some t <-> p_st s t = Running;
  i_pend : forall c, NoDup (p_pend s c) /\ forall t, In t (p_pend s c) -> exists tm, p_st s t = Blocked (WCq c tm);
  i_any : NoDup (p_any s) /\ forall t, In t (p_any s) -> exists tm, p_st s t = Blocked (WAny tm);
  i_jn : forall x t, In t (p_jn s x) -> p_st s t = Blocked (WJoin x);
  i_un : forall x, p_st s x = Done -> p_jn s x = [];
  i_j2 : forall x t t', p_st s t = Blocked (WJoin x) -> p_st s t' = Blocked (WJoin x) -> t = t';
  i_tmo : forall t k, In (Tmo t k) (p_ev s) -> k < p_bc s t \/
     (k = p_bc s t /\ exists b, p_st s t = Blocked b /\ ((exists c, b = WCq c true) \/ b = WAny true));
  i_bad : forall f, In (Bad f) (p_log s) -> f = BStale;
  i_back : forall t b w, In (Back t b w) (p_log s) -> right_reason b w }.

(** A thread that is woken for the reason it waits for. *)
Lemma wake_inv : forall J s s' t b,
  inv J s -> p_act s = None -> p_st s t = Blocked b -> (forall x, b <> WJoin x) ->
  p_act s' = Some t -> (forall x, p_st s' x = set (p_st s) t Running x) ->
  (forall c, p_q s' c = p_q s c) -> (forall c, p_pend s' c = drop t (p_pend s c)) -> p_any s' = drop t (p_any s) ->
  causes t (p_ev s') = [] -> (forall x, x <> t -> causes x (p_ev s') = causes x (p_ev s)) ->
  (forall x k, In (Tmo x k) (p_ev s') -> In (Tmo x k) (p_ev s)) ->
  (forall x k, x <> t -> In (Tmo x k) (p_ev s) -> In (Tmo x k) (p_ev s')) ->
  (forall x, x <> t -> p_bc s' x = p_bc s x) -> (p_bc s' t = S (p_bc s t) \/ (b = WStart /\ p_bc s' t = p_bc s t)) ->
  (forall x, p_jn s' x = p_jn s x) ->
  (forall f, In (Bad f) (p_log s') -> f = BStale) -> (forall u b w, In (Back u b w) (p_log s') -> right_reason b w) ->
  inv J s'.
Proof.
  intros J s s' t b I A B NJ A' ST Q PE AN C1 C2 T1 T2 BC1 BC2 JN L1 L2.
  assert (NJN : forall x, ~ In t (p_jn s x)).
  { intros x H. apply (i_jn _ _ I) in H. rewrite B in H. injection H as ->. exact (NJ x eq_refl). }
  constructor; auto.
  - intros x. pose proof (i_thr _ _ I x) as Hx. unfold thr_ok in *. rewrite ST. destruct (Nat.eq_dec x t) as [->|NE].
    + rewrite set_eq. auto.
    + rewrite set_ne by auto. rewrite C2 by auto. destruct (p_st s x) as [| |[c tm|tm|k|y|]| |] eqn:E; auto.
      * destruct Hx as (H1 & H2 & H3 & H4). rewrite PE, Q, BC1 by auto. rewrite in_drop. repeat split; auto.
      * destruct Hx as (H1 & H2 & H3 & H4). rewrite AN, BC1 by auto. rewrite in_drop. repeat split; auto.
        intros c Hc. rewrite Q. auto.
      * destruct Hx as (H0 & H). split; auto. rewrite JN, ST. destruct (Nat.eq_dec y t) as [->|NY].
        -- rewrite set_eq. destruct H as [(H1 & H2 & H3 & H4)|(H1 & H2 & H3)]; [left|congruence].
           repeat split; auto; discriminate.
        -- rewrite set_ne by auto. auto.
  - intros x. rewrite A', ST. destruct (Nat.eq_dec x t) as [->|NE].
    + rewrite set_eq. tauto.
    + rewrite set_ne by auto. rewrite <- (i_act _ _ I x), A. split; intros; congruence.
  - intros c. rewrite PE. destruct (i_pend _ _ I c) as [P1 P2]. split; [apply drop_nodup; auto|].
    intros x Hx. apply in_drop in Hx as [Hx NE]. rewrite ST, set_ne by auto. auto.
  - rewrite AN. destruct (i_any _ _ I) as [P1 P2]. split; [apply drop_nodup; auto|].
    intros x Hx. apply in_drop in Hx as [Hx NE]. rewrite ST, set_ne by auto. auto.
  - intros x u H. rewrite JN in H. rewrite ST. assert (u <> t) by (intros ->; eapply NJN; eauto). rewrite set_ne by auto.
    apply (i_jn _ _ I); auto.
  - intros x H. rewrite ST in H. rewrite JN. destruct (Nat.eq_dec x t) as [->|NE]; [rewrite set_eq in H; discriminate|].
    rewrite set_ne in H by auto. apply (i_un _ _ I); auto.
  - intros x u u' H H'. rewrite ST in *. destruct (Nat.eq_dec u t) as [->|]; [rewrite set_eq in H; discriminate|].
    destruct (Nat.eq_dec u' t) as [->|]; [rewrite set_eq in H'; discriminate|].
    rewrite set_ne in H, H' by auto. eapply (i_j2 _ _ I); eauto.
  - intros x k H. destruct (i_tmo _ _ I x k (T1 _ _ H)) as [H0|(-> & b' & H1 & H2)].
    + left. destruct (Nat.eq_dec x t) as [->|NE]; [destruct BC2 as [->|[_ ->]]; lia|rewrite BC1; auto].
    + destruct (Nat.eq_dec x t) as [->|NE].
      * left. destruct BC2 as [->|[-> ->]]; [lia|]. rewrite B in H1. injection H1 as <-. exfalso.
        destruct H2 as [[? H2]|H2]; discriminate.
      * right. rewrite BC1 by auto. split; auto. exists b'. rewrite ST, set_ne by auto. auto.
Qed.

(** The active thread gives up the processor. *)
Lemma pause_inv : forall J s s' t b,
  inv J s -> p_act s = Some t -> (forall x, b <> WJoin x) ->
  p_act s' = None -> (forall x, p_st s' x = set (p_st s) t (Blocked b) x) ->
  (forall c, p_q s' c = p_q s c) ->
  (forall c, p_pend s' c = match b with WCq c' _ => if c =? c' then p_pend s c ++ [t] else p_pend s c | _ => p_pend s c end) ->
  p_any s' = match b with WAny _ => p_any s ++ [t] | _ => p_any s end ->
  (forall x, p_jn s' x = p_jn s x) ->
  causes t (p_ev s') = match b with WTimer k => [ByTimer k] | WStart => [ByStart] | _ => [] end ->
  (forall x, x <> t -> causes x (p_ev s') = causes x (p_ev s)) ->
  (forall x k, In (Tmo x k) (p_ev s) -> In (Tmo x k) (p_ev s')) ->
  (forall x k, In (Tmo x k) (p_ev s') -> In (Tmo x k) (p_ev s) \/ (x = t /\ k = p_bc s t /\ match b with WCq _ tm | WAny tm => tm = true | _ => False end)) ->
  match b with WCq c tm => p_q s c = [] /\ (tm = true -> In (Tmo t (p_bc s t)) (p_ev s')) | WAny tm => (forall c, c < n -> p_q s c = []) /\ (tm = true -> In (Tmo t (p_bc s t)) (p_ev s')) | _ => True end ->
  (forall x, p_bc s' x = p_bc s x) -> p_log s' = p_log s ->
  inv J s'.
Proof.
  intros J s s' t b I A NJ A' ST Q PE AN JN C1 C2 T1 T2 W BC LG.
  assert (R : p_st s t = Running) by (apply (i_act _ _ I); auto).
  assert (NP : forall c, ~ In t (p_pend s c)) by (intros c H; apply (i_pend _ _ I) in H; destruct H; congruence).
  assert (NA : ~ In t (p_any s)) by (intros H; apply (i_any _ _ I) in H; destruct H; congruence).
  assert (ND : forall l, NoDup l -> ~ In t l -> NoDup (l ++ [t])).
  { intros l H1 H2. apply NoDup_rev in H1. rewrite <- (rev_involutive (l ++ [t])). apply NoDup_rev. rewrite rev_app_distr. simpl.
    constructor; auto. rewrite <- in_rev. auto. }
  constructor; try (rewrite LG; apply I).
  - intros x. pose proof (i_thr _ _ I x) as Hx. unfold thr_ok in *. rewrite ST, BC. destruct (Nat.eq_dec x t) as [->|NE].
    + rewrite set_eq. destruct b as [c tm|tm|k|y|]; auto.
      * rewrite PE, Nat.eqb_refl, Q. destruct W. repeat split; auto. apply in_or_app. simpl. auto.
      * rewrite AN. destruct W. repeat split; auto. apply in_or_app. simpl. auto. intros. rewrite Q. auto.
      * exfalso. eapply NJ; eauto.
    + rewrite set_ne by auto. rewrite C2 by auto. destruct (p_st s x) as [| |[c tm|tm|k|y|]| |] eqn:E; auto.
      * destruct Hx as (H1 & H2 & H3 & H4). rewrite PE, Q. repeat split; auto.
        destruct b; auto. destruct (_ =? _); auto. apply in_or_app; auto.
      * destruct Hx as (H1 & H2 & H3 & H4). rewrite AN. repeat split; auto.
        destruct b; auto. apply in_or_app; auto. intros. rewrite Q. auto.
      * destruct Hx as (H0 & H). split; auto. rewrite JN, ST. destruct (Nat.eq_dec y t) as [->|NY].
        -- rewrite set_eq. destruct H as [(H1 & H2 & H3 & H4)|(H1 & H2 & H3)]; [left|congruence].
           repeat split; auto; discriminate.
        -- rewrite set_ne by auto. auto.
  - intros x. rewrite A', ST. destruct (Nat.eq_dec x t) as [->|NE].
    + rewrite set_eq. split; discriminate.
    + rewrite set_ne by auto. rewrite <- (i_act _ _ I x), A. split; intros; congruence.
  - intros c. rewrite PE. destruct (i_pend _ _ I c) as [P1 P2].
    assert (OLD : NoDup (p_pend s c) /\ forall x, In x (p_pend s c) -> exists tm, p_st s' x = Blocked (WCq c tm)).
    { split; auto. intros x Hx. rewrite ST, set_ne; auto. intros ->. eapply NP; eauto. }
    destruct b as [c' tm|tm|k|y|]; auto. destruct (Nat.eqb_spec c c'); auto. subst c'. destruct OLD as [O1 O2]. split; [apply ND; auto|].
    intros x Hx. apply in_app_iff in Hx as [Hx|[->|[]]]; auto. exists tm. rewrite ST, set_eq. auto.
  - destruct (i_any _ _ I) as [P1 P2].
    assert (OLD : NoDup (p_any s) /\ forall x, In x (p_any s) -> exists tm, p_st s' x = Blocked (WAny tm)).
    { split; auto. intros x Hx. rewrite ST, set_ne; auto. intros ->. eapply NA; eauto. }
    rewrite AN. destruct b as [c' tm|tm|k|y|]; auto. destruct OLD as [O1 O2]. split; [apply ND; auto|].
    intros x Hx. apply in_app_iff in Hx as [Hx|[->|[]]]; auto. exists tm. rewrite ST, set_eq. auto.
  - intros x u H. rewrite JN in H. apply (i_jn _ _ I) in H. rewrite ST, set_ne; auto. intros ->. congruence.
  - intros x H. rewrite ST in H. rewrite JN. destruct (Nat.eq_dec x t) as [->|NE]; [rewrite set_eq in H; discriminate|].
    rewrite set_ne in H by auto. apply (i_un _ _ I); auto.
  - intros x u u' H H'. rewrite ST in *. destruct (Nat.eq_dec u t) as [->|]; [rewrite set_eq in H; injection H as ->; exfalso; eapply NJ; eauto|].
    destruct (Nat.eq_dec u' t) as [->|]; [rewrite set_eq in H'; injection H' as ->; exfalso; eapply NJ; eauto|].
    rewrite set_ne in H, H' by auto. eapply (i_j2 _ _ I); eauto.
  - intros x k H. rewrite BC. apply T2 in H as [H|(-> & -> & H)].
    + destruct (i_tmo _ _ I x k H) as [H0|(-> & b' & H1 & H2)]; auto. right. split; auto. exists b'. split; auto.
      rewrite ST, set_ne; auto. intros ->. congruence.
    + right. split; auto. exists b. rewrite ST, set_eq. split; auto. destruct b; subst; eauto; contradiction.
Qed.

(** Nothing changes but the queues: taking an item, or adding one when nobody waits. *)
Lemma queue_inv : forall J s s',
  inv J s -> p_act s' = p_act s -> (forall x, p_st s' x = p_st s x) ->
  (forall c, p_q s c = [] -> p_q s' c = [] \/ (p_pend s c = [] /\ p_any s = [])) ->
  (forall c, p_pend s' c = p_pend s c) -> p_any s' = p_any s -> p_ev s' = p_ev s ->
  (forall x, p_bc s' x = p_bc s x) -> (forall x, p_jn s' x = p_jn s x) ->
  (forall f, In (Bad f) (p_log s') -> f = BStale) -> (forall u b w, In (Back u b w) (p_log s') -> right_reason b w) ->
  inv J s'.
Proof.
  intros J s s' I A ST Q PE AN EV BC JN L1 L2. constructor; auto.
  - intros x. pose proof (i_thr _ _ I x) as Hx. unfold thr_ok in *. rewrite ST, EV, BC.
    destruct (p_st s x) as [| |[c tm|tm|k|y|]| |] eqn:E; auto.
    + destruct Hx as (H1 & H2 & H3 & H4). rewrite PE. repeat split; auto. destruct (Q c H3) as [H|[H _]]; auto. rewrite H in H2. contradiction.
    + destruct Hx as (H1 & H2 & H3 & H4). rewrite AN. repeat split; auto. intros c Hc. destruct (Q c (H3 c Hc)) as [H|[_ H]]; auto. rewrite H in H2. contradiction.
    + rewrite JN, ST. auto.
  - intros x. rewrite A, ST. apply I.
  - intros c. rewrite PE. destruct (i_pend _ _ I c). split; auto. intros. rewrite ST. auto.
  - rewrite AN. destruct (i_any _ _ I). split; auto. intros. rewrite ST. auto.
  - intros x u H. rewrite JN in H. rewrite ST. apply I; auto.
  - intros x H. rewrite ST in H. rewrite JN. apply I; auto.
  - intros x u u' H H'. rewrite ST in *. eapply (i_j2 _ _ I); eauto.
  - intros x k H. rewrite EV in H. rewrite BC, ST. apply I; auto.
Qed.

Definition jadd (J : nat -> Prop) (a : act) (t : nat) : Prop := J t \/ a = Join t.

Lemma inv_mono : forall (J J' : nat -> Prop) s, (forall t, J t -> J' t) -> inv J s -> inv J' s.
Proof.
  intros J J' s H I. constructor; try apply I. intros t. pose proof (i_thr _ _ I t) as Hx. unfold thr_ok in *.
  destruct (p_st s t) as [| |[c tm|tm|k|y|]| |]; auto; destruct Hx; auto.
Qed.


Definition fine (o : out) : Prop := match o with Bad f => f = BStale | Back _ b w => right_reason b w | _ => True end.
Lemma fine_split : forall s, (forall o, In o (p_log s) -> fine o) <->
  ((forall f, In (Bad f) (p_log s) -> f = BStale) /\ (forall u b w, In (Back u b w) (p_log s) -> right_reason b w)).
Proof.
  intros s. split.
  - intros H. split; intros. apply (H _ H0). apply (H _ H0).
  - intros [H1 H2] [t c i|t|t b w|f] H; simpl; auto. eapply H2; eauto.
Qed.
Lemma inv_fine : forall J s, inv J s -> forall o, In o (p_log s) -> fine o.
Proof. intros. eapply fine_split; eauto. split; apply H. Qed.

(** A running thread takes an item. *)
Lemma got_inv : forall J s t c i l, inv J s -> p_q s c = i :: l -> inv J (say (Got t c i) (set_q c l s)).
Proof.
  intros J s t c i l I H.
  assert (F : forall o, In o (p_log (say (Got t c i) (set_q c l s))) -> fine o).
  { simpl. intros o Ho. apply in_app_iff in Ho as [Ho|[<-|[]]]; [eapply inv_fine; eauto|exact Logic.I]. }
  apply fine_split in F as [F1 F2].
  apply (queue_inv J s); auto. simpl. intros c' H'. left. rewrite set_ne; auto. intros ->. congruence.
Qed.
Lemma say_inv : forall J s o, inv J s -> fine o -> inv J (say o s).
Proof.
  intros J s o I Fo.
  assert (F : forall x, In x (p_log (say o s)) -> fine x).
  { simpl. intros x Ho. apply in_app_iff in Ho as [Ho|[<-|[]]]; [eapply inv_fine; eauto|auto]. }
  apply fine_split in F as [F1 F2]. apply (queue_inv J s); auto.
Qed.

Lemma back_fine : forall J s o, inv J s -> fine o -> forall x, In x (p_log s ++ [o]) -> fine x.
Proof. intros J s o I F x H. apply in_app_iff in H as [H|[<-|[]]]; auto. eapply inv_fine; eauto. Qed.

(** Waking a thread that waits for an item, which is there. *)
Lemma not_pend : forall J s t b c, inv J s -> p_st s t = Blocked b -> (forall tm, b <> WCq c tm) -> drop t (p_pend s c) = p_pend s c.
Proof.
  intros. apply drop_notin. intros H2. destruct (i_pend _ _ H c) as [_ H3]. destruct (H3 t H2) as [tm E]. rewrite H0 in E. injection E as E. eapply H1; eauto.
Qed.
Lemma not_any : forall J s t b, inv J s -> p_st s t = Blocked b -> (forall tm, b <> WAny tm) -> drop t (p_any s) = p_any s.
Proof.
  intros. apply drop_notin. intros H2. destruct (i_any _ _ H) as [_ H3]. destruct (H3 t H2) as [tm E]. rewrite H0 in E. injection E as E. eapply H1; eauto.
Qed.

(** What resume does, for each kind of wait. *)
Definition woken (t : nat) (b : blk) (s s' : pq) (tail : list out) : Prop :=
  p_act s' = Some t /\ (forall x, p_st s' x = set (p_st s) t Running x) /\ p_ev s' = p_ev s /\
  (forall c, p_pend s' c = match b with WCq c' _ => if c =? c' then drop t (p_pend s c) else p_pend s c | _ => p_pend s c end) /\
  p_any s' = match b with WAny _ => drop t (p_any s) | _ => p_any s end /\
  (forall x, p_jn s' x = p_jn s x) /\
  (forall x, x <> t -> p_bc s' x = p_bc s x) /\ (p_bc s' t = S (p_bc s t) \/ (b = WStart /\ p_bc s' t = p_bc s t)) /\
  p_log s' = p_log s ++ tail.

Lemma woken_inv : forall J s s0 s' t b tl,
  inv J s -> p_act s = None -> p_st s t = Blocked b -> (forall x, b <> WJoin x) ->
  woken t b s0 s' tl -> (forall o, In o tl -> fine o) ->
  (* s0 is s with some events and items moved *)
  p_st s0 = p_st s -> p_pend s0 = p_pend s -> p_any s0 = p_any s -> p_jn s0 = p_jn s -> p_bc s0 = p_bc s -> p_log s0 = p_log s ->
  (forall c, p_q s' c = p_q s c) ->
  causes t (p_ev s0) = [] -> (forall x, x <> t -> causes x (p_ev s0) = causes x (p_ev s)) ->
  (forall x k, In (Tmo x k) (p_ev s0) -> In (Tmo x k) (p_ev s)) ->
  (forall x k, x <> t -> In (Tmo x k) (p_ev s) -> In (Tmo x k) (p_ev s0)) ->
  inv J s'.
Proof.
  intros J s s0 s' t b tl I A B NJ (W1 & W2 & W3 & W4 & W5 & W6 & W7 & W8 & W9) FT E1 E2 E3 E4 E5 E6 Q C1 C2 T1 T2.
  assert (F : forall x, In x (p_log s') -> fine x).
  { rewrite W9, E6. intros x H. apply in_app_iff in H as [H|H]; auto. eapply inv_fine; eauto. }
  apply fine_split in F as [F1 F2].
  rewrite E1 in W2. rewrite E3 in W5. rewrite E5 in W7, W8.
  apply (wake_inv J s s' t b); auto; try (rewrite W3; auto).
  - intros c. rewrite W4, E2. destruct b as [c' tm| | | |]; try (symmetry; eapply not_pend; eauto; discriminate).
    destruct (Nat.eqb_spec c c'); auto. symmetry. eapply not_pend; eauto. intros tm' H. injection H as -> _. auto.
  - rewrite W5. destruct b; auto; symmetry; eapply not_any; eauto; discriminate.
  - intros x. rewrite W6, E4. auto.
Qed.

Lemma take_cq_got : forall t c tm s i l, p_q s c = i :: l -> take_cq t c tm s = say (Got t c i) (set_q c l s).
Proof. intros. unfold take_cq. rewrite H. auto. Qed.
Lemma take_cq_null : forall t c s, p_q s c = [] -> take_cq t c true s = say (Null t) s.
Proof. intros. unfold take_cq. rewrite H. auto. Qed.

Ltac wk := unfold woken; simpl; repeat split; auto;
  try (intros; rewrite set_ne by auto; reflexivity); try (left; rewrite set_eq; reflexivity);
  try (rewrite <- !app_assoc; reflexivity).

(** A new item for a waiting thread. *)
Lemma arrive_cq : forall J s t r c i, inv J s -> p_act s = None -> p_pend s c = t :: r ->
  exists tm, p_st s t = Blocked (WCq c tm) /\
  let s' := incoming n c i ByItem s in inv J s' /\ p_log s' = p_log s ++ [Back t (WCq c tm) ByItem; Got t c i] /\
  (forall c', p_q s' c' = p_q s c').
Proof.
  intros J s t r c i I A P. destruct (i_pend _ _ I c) as [P1 P2].
  destruct (P2 t) as [tm B]; [rewrite P; simpl; auto|]. exists tm. split; auto.
  pose proof (i_thr _ _ I t) as T. unfold thr_ok in T. rewrite B in T. destruct T as (C & _ & Q & _).
  unfold incoming. rewrite P. unfold unblock. simpl p_act. rewrite A. unfold resume. simpl p_st. rewrite B.
  rewrite Q. cbv zeta. erewrite take_cq_got; [|simpl; rewrite set_eq; reflexivity].
  set (s' := say _ _).
  assert (W : woken t (WCq c tm) s s' [Back t (WCq c tm) ByItem; Got t c i]).
  { subst s'. wk. intros c'. unfold set. destruct (Nat.eqb_spec c' c); subst; auto. }
  assert (QQ : forall c', p_q s' c' = p_q s c').
  { subst s'. simpl. intros c'. destruct (Nat.eq_dec c' c) as [->|NE]; [rewrite set_eq; auto|rewrite !set_ne by auto; auto]. }
  split; [|split]; auto.
  eapply (woken_inv J s s); eauto; try discriminate. simpl. intros o [<-|[<-|[]]]; simpl; auto.
  apply W.
Qed.

Lemma first_one : forall s c i, c < n -> (forall c', c' <> c -> c' < n -> p_q s c' = []) -> p_q s c = [i] -> first_of n s = Some (c, i, []).
Proof.
  intros s c i Hc H1 H2. destruct (first_of n s) as [[[c' i'] l']|] eqn:F.
  - apply first_some in F as [F1 F2]. destruct (Nat.eq_dec c' c) as [->|NE]; [congruence|]. rewrite H1 in F2 by auto. discriminate.
  - apply first_none with (c := c) in F; auto. congruence.
Qed.

Lemma arrive_any : forall J s t r c i, c < n -> inv J s -> p_act s = None -> p_pend s c = [] -> p_any s = t :: r ->
  exists tm, p_st s t = Blocked (WAny tm) /\
  let s' := incoming n c i ByItem s in inv J s' /\ p_log s' = p_log s ++ [Back t (WAny tm) ByItem; Got t c i] /\
  (forall c', p_q s' c' = p_q s c').
Proof.
  intros J s t r c i Hc I A P0 P. destruct (i_any _ _ I) as [P1 P2].
  destruct (P2 t) as [tm B]; [rewrite P; simpl; auto|]. exists tm. split; auto.
  pose proof (i_thr _ _ I t) as T. unfold thr_ok in T. rewrite B in T. destruct T as (C & _ & Q & _).
  unfold incoming. rewrite P0, P. unfold unblock. simpl p_act. rewrite A. unfold resume. simpl p_st. rewrite B.
  rewrite Q by auto. cbv zeta. unfold take_any. rewrite (first_one _ c i); auto.
  2: { intros. simpl. rewrite set_ne by auto. auto. } 2: { simpl. rewrite set_eq. auto. }
  set (s' := say _ _).
  assert (W : woken t (WAny tm) s s' [Back t (WAny tm) ByItem; Got t c i]).
  { subst s'. wk. }
  assert (QQ : forall c', p_q s' c' = p_q s c').
  { subst s'. simpl. intros c'. destruct (Nat.eq_dec c' c) as [->|NE]; [rewrite set_eq; symmetry; auto|rewrite !set_ne by auto; auto]. }
  split; [|split]; auto.
  eapply (woken_inv J s s); eauto; try discriminate. simpl. intros o [<-|[<-|[]]]; simpl; auto.
  apply W.
Qed.

Lemma put_inv : forall J s c l, inv J s -> p_pend s c = [] -> p_any s = [] -> inv J (set_q c l s).
Proof.
  intros J s c l I P A. apply (queue_inv J s); auto; try apply I.
  simpl. intros c' H. destruct (Nat.eq_dec c' c) as [->|NE]; auto. rewrite set_ne by auto. auto.
Qed.

(** An event is executed. *)
Lemma causes_mid : forall t u e v, causes t (u ++ e :: v) = causes t u ++ causes t [e] ++ causes t v.
Proof. intros. change (e :: v) with ([e] ++ v). rewrite !causes_app. auto. Qed.
Lemma wake_head : forall t u w v l, causes t (u ++ Wake t w :: v) = l -> exists a b, causes t u = a /\ causes t v = b /\ l = a ++ w :: b.
Proof. intros. rewrite causes_mid in H. simpl in H. rewrite Nat.eqb_refl in H. simpl in H. eauto. Qed.
Lemma one_split : forall A (a b : list A) w x, [x] = a ++ w :: b -> a = [] /\ b = [] /\ w = x.
Proof. intros A a b w x H. destruct a as [|y a]; simpl in H. injection H as -> <-. auto. destruct a; discriminate. Qed.


Lemma fire_wake : forall J s t w u v, inv J s -> p_act s = None -> p_ev s = u ++ Wake t w :: v ->
  inv J (fire n (Wake t w) (set_ev (u ++ v) s)) /\ (forall c, p_q (fire n (Wake t w) (set_ev (u ++ v) s)) c = p_q s c) /\
  exists b, p_st s t = Blocked b /\ right_reason b w /\
  p_log (fire n (Wake t w) (set_ev (u ++ v) s)) = p_log s ++ [Back t b w].
Proof.
  intros J s t w u v I A E. pose proof (i_thr _ _ I t) as T. unfold thr_ok in T. rewrite E in T.
  assert (N0 : causes t (u ++ Wake t w :: v) <> []).
  { rewrite causes_mid. simpl. rewrite Nat.eqb_refl. simpl. destruct (causes t u); discriminate. }
  assert (C2 : forall x, x <> t -> causes x (u ++ v) = causes x (p_ev s)).
  { intros x NE. rewrite E, causes_mid, causes_app. simpl. destruct (Nat.eqb_spec t x); [congruence|]. auto. }
  assert (T1 : forall x k, In (Tmo x k) (u ++ v) <-> In (Tmo x k) (p_ev s)).
  { intros x k. rewrite E, !in_app_iff. simpl. split; [tauto|]. intros [H|[H|H]]; auto. discriminate. }
  simpl. unfold resume. simpl p_st.
  destruct (p_st s t) as [| |[c tm|tm|k|y|]| |] eqn:B; try (exfalso; intuition congruence).
  - (* timer *)
    destruct (wake_head _ _ _ _ _ T) as (a & b & Ha & Hb & H). apply one_split in H as (-> & -> & ->).
    set (s' := tick _ _).
    assert (W : woken t (WTimer k) (set_ev (u ++ v) s) s' [Back t (WTimer k) (ByTimer k)]) by (subst s'; wk).
    split; [|split; auto; exists (WTimer k); repeat split; auto].
    eapply (woken_inv J s (set_ev (u ++ v) s)); eauto; try discriminate.
    + simpl. intros o [<-|[]]. simpl. auto.
    + simpl. rewrite causes_app, Ha, Hb. auto.
    + simpl. intros. apply T1. auto.
    + simpl. intros. apply T1. auto.
  - (* join *)
    destruct T as (HJ & [(T & _)|(T & JN & D)]); [congruence|].
    destruct (wake_head _ _ _ _ _ T) as (a & b & Ha & Hb & H). apply one_split in H as (-> & -> & ->).
    assert (NE : y <> t) by congruence.
    unfold delete. simpl p_st. rewrite set_ne by auto. rewrite D.
    split; [|split; auto; exists (WJoin y); repeat split; auto].
    set (s' := set_st y Gone _).
    assert (ST : forall x, p_st s' x = if x =? y then Gone else if x =? t then Running else p_st s x) by reflexivity.
    assert (STy : p_st s' y = Gone) by (rewrite ST, Nat.eqb_refl; auto).
    assert (STt : p_st s' t = Running) by (rewrite ST, Nat.eqb_refl; destruct (Nat.eqb_spec t y); [congruence|reflexivity]).
    assert (STo : forall x, x <> y -> x <> t -> p_st s' x = p_st s x).
    { intros x n1 n2. rewrite ST. apply Nat.eqb_neq in n1, n2. rewrite n1, n2. auto. }
    assert (BCo : forall x, x <> t -> p_bc s' x = p_bc s x) by (intros; simpl; apply set_ne; auto).
    assert (F : forall x, In x (p_log s') -> fine x) by (exact (back_fine J s (Back t (WJoin y) (ByJoin y)) I eq_refl)).
    apply fine_split in F as [F1 F2].
    constructor; auto.
    + intros x. pose proof (i_thr _ _ I x) as Hx. unfold thr_ok in *.
      change (p_ev s') with (u ++ v). change (p_pend s') with (p_pend s). change (p_any s') with (p_any s). change (p_jn s') with (p_jn s). change (p_q s') with (p_q s).
      destruct (Nat.eq_dec x y) as [->|Ny].
      * rewrite STy, C2 by auto. rewrite D in Hx. auto.
      * destruct (Nat.eq_dec x t) as [->|Nt].
        -- rewrite STt, causes_app, Ha, Hb. auto.
        -- rewrite STo, C2, BCo by auto. destruct (p_st s x) as [| |[c tm|tm|k|z|]| |] eqn:Bx; auto.
           ++ destruct Hx as (H1 & H2 & H3 & H4). repeat split; auto. intros; apply T1; auto.
           ++ destruct Hx as (H1 & H2 & H3 & H4). repeat split; auto. intros; apply T1; auto.
           ++ assert (z <> y). { intros ->. apply Nt. apply (i_j2 _ _ I y); auto. }
              destruct Hx as [Hx0 Hx]. split; auto. destruct (Nat.eq_dec z t) as [->|Nz].
              ** rewrite STt. left. destruct Hx as [(H1 & H2 & _)|(_ & _ & H3)]; [|congruence]. repeat split; auto; discriminate.
              ** rewrite STo by auto. auto.
    + intros x. destruct (Nat.eq_dec x y) as [->|Ny].
      * rewrite STy. simpl. split; [|discriminate]. intros H. injection H as <-. contradiction.
      * destruct (Nat.eq_dec x t) as [->|Nt]; [rewrite STt; simpl; tauto|]. rewrite STo by auto. rewrite <- (i_act _ _ I), A. simpl. split; congruence.
    + intros c. destruct (i_pend _ _ I c) as [P1 P2]. split; auto. intros x Hx. destruct (P2 x Hx) as [tm Hs]. exists tm. rewrite STo; auto; congruence.
    + destruct (i_any _ _ I) as [P1 P2]. split; auto. intros x Hx. destruct (P2 x Hx) as [tm Hs]. exists tm. rewrite STo; auto; congruence.
    + intros x z Hz. change (p_jn s') with (p_jn s) in Hz. pose proof (i_jn _ _ I x z Hz) as Hs. rewrite STo; auto; [congruence|]. intros ->.
      rewrite B in Hs. injection Hs as <-. rewrite JN in Hz. contradiction.
    + intros x Hx. destruct (Nat.eq_dec x y) as [->|Ny]; [congruence|]. destruct (Nat.eq_dec x t) as [->|Nt]; [congruence|]. rewrite STo in Hx by auto. apply (i_un _ _ I); auto.
    + intros x z z' H H'. assert (GG : forall q, p_st s' q = Blocked (WJoin x) -> p_st s q = Blocked (WJoin x)).
      { intros q Hq. destruct (Nat.eq_dec q y) as [->|]; [congruence|]. destruct (Nat.eq_dec q t) as [->|]; [congruence|]. rewrite STo in Hq; auto. }
      apply (i_j2 _ _ I x); auto.
    + intros x k H. change (p_ev s') with (u ++ v) in H. apply T1 in H. destruct (i_tmo _ _ I x k H) as [H0|(-> & b' & H1 & H2)].
      * left. destruct (Nat.eq_dec x t) as [->|Nt]; [simpl; rewrite set_eq; lia|rewrite BCo; auto].
      * destruct (Nat.eq_dec x t) as [->|Nt]; [simpl; rewrite set_eq; left; lia|]. right. rewrite BCo by auto. split; auto. exists b'. split; auto. rewrite STo; auto. congruence.
  - (* start *)
    destruct (wake_head _ _ _ _ _ T) as (a & b & Ha & Hb & H). apply one_split in H as (-> & -> & ->).
    set (s' := say _ _).
    assert (W : woken t WStart (set_ev (u ++ v) s) s' [Back t WStart ByStart]) by (subst s'; wk).
    split; [|split; auto; exists WStart; repeat split; auto].
    eapply (woken_inv J s (set_ev (u ++ v) s)); eauto; try discriminate.
    + simpl. intros o [<-|[]]. simpl. auto.
    + simpl. rewrite causes_app, Ha, Hb. auto.
    + simpl. intros. apply T1. auto.
    + simpl. intros. apply T1. auto.
Qed.

Lemma set_ev_inv : forall J s u v t k, inv J s -> p_ev s = u ++ Tmo t k :: v -> k <> p_bc s t -> inv J (set_ev (u ++ v) s).
Proof.
  intros J s u v t k I E NB.
  assert (C : forall x, causes x (u ++ v) = causes x (p_ev s)) by (intros; rewrite E, causes_mid, causes_app; auto).
  assert (T1 : forall x j, In (Tmo x j) (u ++ v) -> In (Tmo x j) (p_ev s)) by (intros x j; rewrite E, !in_app_iff; simpl; tauto).
  assert (T2 : forall x, In (Tmo x (p_bc s x)) (p_ev s) -> In (Tmo x (p_bc s x)) (u ++ v)).
  { intros x. rewrite E, !in_app_iff. simpl. intros [H|[H|H]]; auto. injection H as -> ->. contradiction. }
  constructor; simpl; try apply I.
  - intros x. pose proof (i_thr _ _ I x) as Hx. unfold thr_ok in *. simpl. rewrite C.
    destruct (p_st s x) as [| |[c tm|tm|j|z|]| |]; auto; intuition.
  - intros x j H. apply I. auto.
Qed.

Lemma fire_tmo : forall J s t k u v, inv J s -> p_act s = None -> p_ev s = u ++ Tmo t k :: v ->
  let s' := fire n (Tmo t k) (set_ev (u ++ v) s) in
  inv J s' /\ (forall c, p_q s' c = p_q s c) /\ exists tl, p_log s' = p_log s ++ tl /\ (forall c, handed c tl = []) /\
    (tl = [] \/ (tl = [Bad BStale] /\ p_st s t = Gone) \/ exists b, p_st s t = Blocked b /\ tl = [Back t b ByTimeout; Null t]).
Proof.
  intros J s t k u v I A E.
  assert (SG : p_st s t = Gone -> k <> p_bc s t).
  { intros G H. destruct (i_tmo _ _ I t k) as [H0|(_ & b & H0 & _)]; [rewrite E; apply in_elt|lia|congruence]. }
  assert (C : forall x, causes x (u ++ v) = causes x (p_ev s)) by (intros; rewrite E, causes_mid, causes_app; auto).
  destruct (Nat.eq_dec k (p_bc s t)) as [->|NE].
  - destruct (i_tmo _ _ I t (p_bc s t)) as [H0|(_ & b & B & H0)]; [rewrite E; apply in_elt|lia|].
    simpl. rewrite B, Nat.eqb_refl. unfold resume. simpl p_st. rewrite B.
    pose proof (i_thr _ _ I t) as T. unfold thr_ok in T. rewrite B in T.
    assert (T1 : forall x j, In (Tmo x j) (u ++ v) -> In (Tmo x j) (p_ev s)) by (intros x j; rewrite E, !in_app_iff; simpl; tauto).
    assert (T2 : forall x j, x <> t -> In (Tmo x j) (p_ev s) -> In (Tmo x j) (u ++ v)).
    { intros x j NE. rewrite E, !in_app_iff. simpl. intros [H|[H|H]]; auto. congruence. }
    destruct H0 as [[c ->]| -> ].
    + destruct T as (TC & _ & Q & _). cbv zeta. rewrite take_cq_null by (simpl; auto).
      set (s' := say _ _).
      assert (W : woken t (WCq c true) (set_ev (u ++ v) s) s' [Back t (WCq c true) ByTimeout; Null t]).
      { subst s'. wk. intros c'. unfold set. destruct (Nat.eqb_spec c' c); subst; auto. }
      split; [|split; auto; exists [Back t (WCq c true) ByTimeout; Null t]; repeat split; auto; [apply W|]].
      2: { right. right. eauto. }
      eapply (woken_inv J s (set_ev (u ++ v) s)); eauto; try discriminate.
      * simpl. intros o [<-|[<-|[]]]; simpl; auto.
      * simpl. rewrite C. auto.
    + destruct T as (TC & _ & Q & _). cbv zeta. unfold take_any. simpl. 
      match goal with |- context [first_of n ?z] => assert (FN : first_of n z = None) by (apply first_none; auto) end. rewrite FN.
      set (s' := say _ _).
      assert (W : woken t (WAny true) (set_ev (u ++ v) s) s' [Back t (WAny true) ByTimeout; Null t]) by (subst s'; wk).
      split; [|split; auto; exists [Back t (WAny true) ByTimeout; Null t]; repeat split; auto; [apply W|]].
      2: { right. right. eauto. }
      eapply (woken_inv J s (set_ev (u ++ v) s)); eauto; try discriminate.
      * simpl. intros o [<-|[<-|[]]]; simpl; auto.
      * simpl. rewrite C. auto.
  - assert (I' : inv J (set_ev (u ++ v) s)) by (eapply set_ev_inv; eauto).
    simpl. destruct (Nat.eqb_spec (p_bc s t) k) as [NB|NB]; [congruence|].
    destruct (p_st s t) eqn:B; cbv zeta; (split; [try apply say_inv; auto; reflexivity|split; auto]);
      try (exists []; rewrite app_nil_r; repeat split; auto; fail).
    exists [Bad BStale]. repeat split; auto.
Qed.

(** A new thread. *)
Lemma launch_inv : forall J s t, inv J s -> p_st s t = Unborn -> inv J (send (Wake t ByStart) (set_st t (Blocked WStart) s)).
Proof.
  intros J s t I U. set (s' := send _ _).
  assert (STt : p_st s' t = Blocked WStart) by (simpl; apply set_eq).
  assert (STo : forall x, x <> t -> p_st s' x = p_st s x) by (intros; simpl; apply set_ne; auto).
  assert (CA : forall x, x <> t -> causes x (p_ev s') = causes x (p_ev s)).
  { intros x NE. simpl. rewrite causes_app. simpl. destruct (Nat.eqb_spec t x); [congruence|]. apply app_nil_r. }
  assert (TM : forall x k, In (Tmo x k) (p_ev s') <-> In (Tmo x k) (p_ev s)).
  { intros x k. simpl. rewrite in_app_iff. simpl. split; [|tauto]. intros [H|[H|[]]]; auto. discriminate. }
  constructor; try apply I.
  - intros x. pose proof (i_thr _ _ I x) as Hx. unfold thr_ok in *.
    change (p_bc s') with (p_bc s). change (p_pend s') with (p_pend s). change (p_any s') with (p_any s). change (p_jn s') with (p_jn s). change (p_q s') with (p_q s).
    destruct (Nat.eq_dec x t) as [->|NE].
    + rewrite STt. rewrite U in Hx. simpl. rewrite causes_app, Hx. simpl. rewrite Nat.eqb_refl. auto.
    + rewrite STo, CA by auto. destruct (p_st s x) as [| |[c tm|tm|j|z|]| |]; auto.
      * intuition; apply TM; auto.
      * intuition; apply TM; auto.
      * destruct Hx as [H0 H]. split; auto. destruct (Nat.eq_dec z t) as [->|Nz]; [|rewrite STo; auto].
        rewrite STt. left. destruct H as [(H1 & H2 & _)|(_ & _ & H3)]; [|congruence]. repeat split; auto; discriminate.
  - intros x. change (p_act s') with (p_act s). rewrite (i_act _ _ I). destruct (Nat.eq_dec x t) as [->|NE]; [rewrite STt, U; split; discriminate|rewrite STo; tauto].
  - intros c. destruct (i_pend _ _ I c) as [P1 P2]. split; auto. intros x Hx. destruct (P2 x Hx) as [tm H]. exists tm. rewrite STo; auto; congruence.
  - destruct (i_any _ _ I) as [P1 P2]. split; auto. intros x Hx. destruct (P2 x Hx) as [tm H]. exists tm. rewrite STo; auto; congruence.
  - intros x z H. pose proof (i_jn _ _ I x z H). rewrite STo; auto. congruence.
  - intros x H. destruct (Nat.eq_dec x t) as [->|NE]; [congruence|]. rewrite STo in H by auto. apply (i_un _ _ I); auto.
  - intros x z z' H H'. assert (GG : forall q, p_st s' q = Blocked (WJoin x) -> p_st s q = Blocked (WJoin x)).
    { intros q Hq. destruct (Nat.eq_dec q t) as [->|]; [congruence|]. rewrite STo in Hq; auto. }
    apply (i_j2 _ _ I x); auto.
  - intros x k H. apply TM in H. destruct (i_tmo _ _ I x k H) as [H0|(E & b' & H1 & H2)]; auto. right. split; auto. exists b'. split; auto. rewrite STo; auto. congruence.
Qed.

(** Joining a thread that is not done yet. *)
Lemma join_wait_inv : forall J s t y, inv J s -> p_act s = Some t -> ~ J y -> p_st s y <> Done -> p_st s y <> Gone ->
  inv (fun x => J x \/ x = y) (pause t (WJoin y) (set_jn y (p_jn s y ++ [t]) s)).
Proof.
  intros J s t y I A NJ D G. set (s' := pause _ _ _).
  assert (R : p_st s t = Running) by (apply (i_act _ _ I); auto).
  assert (STt : p_st s' t = Blocked (WJoin y)) by (simpl; apply set_eq).
  assert (STo : forall x, x <> t -> p_st s' x = p_st s x) by (intros; simpl; apply set_ne; auto).
  assert (NY : forall x, p_st s x <> Blocked (WJoin y)).
  { intros x H. apply NJ. pose proof (i_thr _ _ I x) as Hx. unfold thr_ok in Hx. rewrite H in Hx. apply Hx. }
  assert (JY : p_jn s y = []).
  { destruct (p_jn s y) as [|z l] eqn:E; auto. exfalso. apply (NY z). apply (i_jn _ _ I). rewrite E. simpl. auto. }
  assert (JNy : p_jn s' y = [t]) by (simpl; rewrite set_eq, JY; auto).
  assert (JNo : forall x, x <> y -> p_jn s' x = p_jn s x) by (intros; simpl; apply set_ne; auto).
  constructor; try apply I.
  - intros x. pose proof (i_thr _ _ I x) as Hx. unfold thr_ok in *.
    change (p_bc s') with (p_bc s). change (p_pend s') with (p_pend s). change (p_any s') with (p_any s). change (p_ev s') with (p_ev s). change (p_q s') with (p_q s).
    destruct (Nat.eq_dec x t) as [->|NE].
    + rewrite STt. rewrite R in Hx. split; auto. left. repeat split; auto; destruct (Nat.eq_dec y t) as [->|]; [congruence|rewrite STo; auto|congruence|rewrite STo; auto].
    + rewrite STo by auto. destruct (p_st s x) as [| |[c tm|tm|j|z|]| |] eqn:B; auto.
      * assert (z <> y) by (intros ->; eapply NY; eauto). destruct Hx as [H0 H1]. split; auto.
        rewrite JNo by auto. destruct (Nat.eq_dec z t) as [->|Nz]; [|rewrite STo; auto]. rewrite STt. left.
        destruct H1 as [(H1 & H2 & _)|(_ & _ & H3)]; [|congruence]. repeat split; auto; discriminate.
      * destruct Hx; auto.
  - intros x. simpl p_act. destruct (Nat.eq_dec x t) as [->|NE]; [rewrite STt; split; discriminate|]. rewrite STo by auto. rewrite <- (i_act _ _ I), A. split; congruence.
  - intros c. destruct (i_pend _ _ I c) as [P1 P2]. split; auto. intros x Hx. destruct (P2 x Hx) as [tm H]. exists tm. rewrite STo; auto; congruence.
  - destruct (i_any _ _ I) as [P1 P2]. split; auto. intros x Hx. destruct (P2 x Hx) as [tm H]. exists tm. rewrite STo; auto; congruence.
  - intros x z H. destruct (Nat.eq_dec x y) as [->|NE]; [rewrite JNy in H; destruct H as [<-|[]]; auto|]. rewrite JNo in H by auto.
    pose proof (i_jn _ _ I x z H). rewrite STo; auto. congruence.
  - intros x H. destruct (Nat.eq_dec x t) as [->|NE]; [congruence|]. rewrite STo in H by auto. destruct (Nat.eq_dec x y) as [->|]; [congruence|]. rewrite JNo by auto. apply (i_un _ _ I); auto.
  - intros x z z' H H'. destruct (Nat.eq_dec z t) as [->|Nz]; destruct (Nat.eq_dec z' t) as [->|Nz']; auto.
    + rewrite STt in H. injection H as <-. rewrite STo in H' by auto. exfalso. eapply NY; eauto.
    + rewrite STt in H'. injection H' as <-. rewrite STo in H by auto. exfalso. eapply NY; eauto.
    + rewrite STo in H, H' by auto. apply (i_j2 _ _ I x); auto.
  - intros x k H. destruct (i_tmo _ _ I x k H) as [H0|(E & b' & H1 & H2)]; auto. right. split; auto. exists b'. split; auto. rewrite STo; auto. congruence.
Qed.

(** Joining a thread that is done. *)
Lemma join_done_inv : forall J s t y, inv J s -> p_act s = Some t -> ~ J y -> p_st s y = Done ->
  inv (fun x => J x \/ x = y) (set_st y Gone s).
Proof.
  intros J s t y I A NJ D. set (s' := set_st _ _ _).
  assert (STt : p_st s' y = Gone) by (simpl; apply set_eq).
  assert (STo : forall x, x <> y -> p_st s' x = p_st s x) by (intros; simpl; apply set_ne; auto).
  assert (NY : forall x, p_st s x <> Blocked (WJoin y)).
  { intros x H. apply NJ. pose proof (i_thr _ _ I x) as Hx. unfold thr_ok in Hx. rewrite H in Hx. apply Hx. }
  constructor; try apply I.
  - intros x. pose proof (i_thr _ _ I x) as Hx. unfold thr_ok in *.
    change (p_bc s') with (p_bc s). change (p_pend s') with (p_pend s). change (p_any s') with (p_any s). change (p_ev s') with (p_ev s). change (p_q s') with (p_q s). change (p_jn s') with (p_jn s).
    destruct (Nat.eq_dec x y) as [->|NE].
    + rewrite STt. rewrite D in Hx. auto.
    + rewrite STo by auto. destruct (p_st s x) as [| |[c tm|tm|j|z|]| |] eqn:B; auto.
      * assert (z <> y) by (intros ->; eapply NY; eauto). destruct Hx as [H0 H1]. split; auto. rewrite STo by auto. auto.
      * destruct Hx; auto.
  - intros x. change (p_act s') with (p_act s). rewrite (i_act _ _ I). destruct (Nat.eq_dec x y) as [->|NE]; [rewrite STt, D; split; discriminate|rewrite STo; tauto].
  - intros c. destruct (i_pend _ _ I c) as [P1 P2]. split; auto. intros x Hx. destruct (P2 x Hx) as [tm H]. exists tm. rewrite STo; auto; congruence.
  - destruct (i_any _ _ I) as [P1 P2]. split; auto. intros x Hx. destruct (P2 x Hx) as [tm H]. exists tm. rewrite STo; auto; congruence.
  - intros x z H. pose proof (i_jn _ _ I x z H). rewrite STo; auto. congruence.
  - intros x H. destruct (Nat.eq_dec x y) as [->|NE]; [congruence|]. rewrite STo in H by auto. apply (i_un _ _ I); auto.
  - intros x z z' H H'. assert (GG : forall q, p_st s' q = Blocked (WJoin x) -> p_st s q = Blocked (WJoin x)).
    { intros q Hq. destruct (Nat.eq_dec q y) as [->|]; [congruence|]. rewrite STo in Hq; auto. }
    apply (i_j2 _ _ I x); auto.
  - intros x k H. destruct (i_tmo _ _ I x k H) as [H0|(E & b' & H1 & H2)]; auto. right. split; auto. exists b'. split; auto. rewrite STo; auto. congruence.
Qed.

(** The active thread ends. *)
Lemma exit_inv : forall J s t, inv J s -> p_act s = Some t ->
  inv J (do_exit n t s) /\ (forall c, p_q (do_exit n t s) c = p_q s c) /\ p_log (do_exit n t s) = p_log s.
Proof.
  intros J s t I A. assert (R : p_st s t = Running) by (apply (i_act _ _ I); auto).
  assert (JL : p_jn s t = [] \/ exists j, p_jn s t = [j] /\ p_st s j = Blocked (WJoin t)).
  { destruct (p_jn s t) as [|j l] eqn:E; auto. right. exists j.
    assert (B : p_st s j = Blocked (WJoin t)) by (apply (i_jn _ _ I); rewrite E; simpl; auto).
    split; auto. pose proof (i_thr _ _ I j) as Hx. unfold thr_ok in Hx. rewrite B in Hx. rewrite E in Hx.
    destruct Hx as [_ [(_ & H & _)|(_ & H & _)]]; congruence. }
  assert (X : do_exit n t s = Pq None (set (p_st s) t Done) (p_q s) (p_pend s) (p_any s) (p_ev s ++ map (fun j => Wake j (ByJoin t)) (p_jn s t)) (p_bc s) (set (p_jn s) t []) (p_log s)).
  { unfold do_exit. destruct JL as [->|(j & -> & _)]; simpl.
    - rewrite app_nil_r. unfold set_act, set_jn, set_st. simpl. auto.
    - unfold unblock. simpl p_act. rewrite A. auto. }
  rewrite X. split; auto. clear X. set (s' := Pq _ _ _ _ _ _ _ _ _).
  assert (STt : p_st s' t = Done) by (simpl; apply set_eq).
  assert (STo : forall x, x <> t -> p_st s' x = p_st s x) by (intros; simpl; apply set_ne; auto).
  assert (JNy : p_jn s' t = []) by (simpl; apply set_eq).
  assert (JNo : forall x, x <> t -> p_jn s' x = p_jn s x) by (intros; simpl; apply set_ne; auto).
  assert (CA : forall x, causes x (p_ev s') = causes x (p_ev s) ++ (if existsb (Nat.eqb x) (p_jn s t) then [ByJoin t] else [])).
  { intros x. simpl. rewrite causes_app. f_equal. destruct JL as [->|(j & -> & _)]; simpl; auto. rewrite orb_false_r, (Nat.eqb_sym x j). destruct (j =? x); auto. }
  assert (CN : forall x, p_st s x <> Blocked (WJoin t) -> causes x (p_ev s') = causes x (p_ev s)).
  { intros x H. rewrite CA. destruct JL as [->|(j & -> & B)]; simpl; [apply app_nil_r|]. destruct (Nat.eqb_spec x j); [congruence|]. simpl. apply app_nil_r. }
  assert (TM : forall x k, In (Tmo x k) (p_ev s') <-> In (Tmo x k) (p_ev s)).
  { intros x k. simpl. rewrite in_app_iff. split; [|tauto]. intros [H|H]; auto. apply in_map_iff in H as (? & H & _). discriminate. }
  constructor; try apply I.
  - intros x. pose proof (i_thr _ _ I x) as Hx. unfold thr_ok in *.
    change (p_bc s') with (p_bc s). change (p_pend s') with (p_pend s). change (p_any s') with (p_any s). change (p_q s') with (p_q s).
    destruct (Nat.eq_dec x t) as [->|NE].
    + rewrite STt, CN by congruence. rewrite R in Hx. auto.
    + rewrite STo by auto. destruct (p_st s x) as [| |[c tm|tm|j|z|]| |] eqn:B; try (rewrite CN by congruence); auto.
      * intuition; apply TM; auto.
      * intuition; apply TM; auto.
      * destruct Hx as [H0 H1]. split; auto. destruct (Nat.eq_dec z t) as [->|Nz].
        -- right. rewrite STt, JNy, CA. destruct H1 as [(H1 & H2 & _)|(_ & _ & H3)]; [|congruence].
           rewrite H2, H1. simpl. rewrite Nat.eqb_refl. auto.
        -- rewrite CN by congruence. rewrite JNo, STo by auto. auto.
  - intros x. simpl p_act. destruct (Nat.eq_dec x t) as [->|NE]; [rewrite STt; split; discriminate|]. rewrite STo by auto. rewrite <- (i_act _ _ I), A. split; congruence.
  - intros c. destruct (i_pend _ _ I c) as [P1 P2]. split; auto. intros x Hx. destruct (P2 x Hx) as [tm H]. exists tm. rewrite STo; auto; congruence.
  - destruct (i_any _ _ I) as [P1 P2]. split; auto. intros x Hx. destruct (P2 x Hx) as [tm H]. exists tm. rewrite STo; auto; congruence.
  - intros x z H. destruct (Nat.eq_dec x t) as [->|NE]; [rewrite JNy in H; contradiction|]. rewrite JNo in H by auto.
    pose proof (i_jn _ _ I x z H). rewrite STo; auto. congruence.
  - intros x H. destruct (Nat.eq_dec x t) as [->|NE]; [auto|]. rewrite STo in H by auto. rewrite JNo by auto. apply (i_un _ _ I); auto.
  - intros x z z' H H'. assert (GG : forall q, p_st s' q = Blocked (WJoin x) -> p_st s q = Blocked (WJoin x)).
    { intros q Hq. destruct (Nat.eq_dec q t) as [->|]; [congruence|]. rewrite STo in Hq; auto. }
    apply (i_j2 _ _ I x); auto.
  - intros x k H. apply TM in H. destruct (i_tmo _ _ I x k H) as [H0|(E & b' & H1 & H2)]; auto. right. split; auto. exists b'. split; auto. rewrite STo; auto. congruence.
Qed.

(** Waiting in find and find_any, and computing. *)
Lemma wait_cq_inv : forall J s t c m, inv J s -> p_act s = Some t -> p_q s c = [] ->
  inv J (pause t (WCq c (is_tm m)) (arm t m (set_pend c (p_pend s c ++ [t]) s))).
Proof.
  intros J s t c m I A Q. assert (R : p_st s t = Running) by (apply (i_act _ _ I); auto).
  pose proof (i_thr _ _ I t) as T. unfold thr_ok in T. rewrite R in T.
  apply (pause_inv J s _ t (WCq c (is_tm m))); auto; try discriminate; try (destruct m; reflexivity).
  - intros c'. destruct m; simpl; unfold set; destruct (Nat.eqb_spec c' c); subst; auto.
  - destruct m; simpl; rewrite ?causes_app, ?T; auto.
  - intros x NE. destruct m; simpl; rewrite ?causes_app; simpl; rewrite ?app_nil_r; auto.
  - intros x k H. destruct m; simpl; rewrite ?in_app_iff; auto.
  - intros x k. destruct m; simpl; rewrite ?in_app_iff; auto. simpl. intros [H|[H|[]]]; auto. injection H as <- <-. auto.
  - split; auto. destruct m; simpl; try discriminate. intros _. rewrite in_app_iff. simpl. auto.
Qed.
Lemma wait_any_inv : forall J s t m, inv J s -> p_act s = Some t -> (forall c, c < n -> p_q s c = []) ->
  inv J (pause t (WAny (is_tm m)) (arm t m (set_any (p_any s ++ [t]) s))).
Proof.
  intros J s t m I A Q. assert (R : p_st s t = Running) by (apply (i_act _ _ I); auto).
  pose proof (i_thr _ _ I t) as T. unfold thr_ok in T. rewrite R in T.
  apply (pause_inv J s _ t (WAny (is_tm m))); auto; try discriminate; try (destruct m; reflexivity).
  - destruct m; simpl; rewrite ?causes_app, ?T; auto.
  - intros x NE. destruct m; simpl; rewrite ?causes_app; simpl; rewrite ?app_nil_r; auto.
  - intros x k H. destruct m; simpl; rewrite ?in_app_iff; auto.
  - intros x k. destruct m; simpl; rewrite ?in_app_iff; auto. simpl. intros [H|[H|[]]]; auto. injection H as <- <-. auto.
  - split; auto. destruct m; simpl; try discriminate. intros _. rewrite in_app_iff. simpl. auto.
Qed.
Lemma compute_inv : forall J s t k, inv J s -> p_act s = Some t -> inv J (pause t (WTimer k) (send (Wake t (ByTimer k)) s)).
Proof.
  intros J s t k I A. assert (R : p_st s t = Running) by (apply (i_act _ _ I); auto).
  pose proof (i_thr _ _ I t) as T. unfold thr_ok in T. rewrite R in T.
  apply (pause_inv J s _ t (WTimer k)); auto; try discriminate.
  - simpl. rewrite causes_app, T. simpl. rewrite Nat.eqb_refl. auto.
  - intros x NE. simpl. rewrite causes_app. simpl. destruct (Nat.eqb_spec t x); [congruence|]. apply app_nil_r.
  - intros x j H. simpl. rewrite in_app_iff. auto.
  - intros x j. simpl. rewrite in_app_iff. simpl. intros [H|[H|[]]]; auto. discriminate.
Qed.

Lemma put_one : forall c' i c, put_in c [Arrive c' i] = if c' =? c then [i] else [].
Proof. intros. simpl. apply app_nil_r. Qed.
Lemma push_acc : forall s c i c', p_q (set_q c (p_q s c ++ [i]) s) c' = p_q s c' ++ (if c =? c' then [i] else []).
Proof. intros. simpl. unfold set. rewrite Nat.eqb_sym. destruct (Nat.eqb_spec c c'); subst; auto. rewrite app_nil_r. auto. Qed.

(** One step: the invariant, and where the items go. *)
Theorem step_ok : forall J s a s', inv J s -> quiet a s -> (forall t, a = Join t -> ~ J t) -> step n a s = Some s' ->
  inv (jadd J a) s' /\ exists tl, p_log s' = p_log s ++ tl /\
    forall c, p_q s c ++ put_in c [a] = handed c tl ++ p_q s' c.
Proof.
  intros J s a s' I QU FR ST.
  assert (MO : forall z, inv J z -> inv (jadd J a) z) by (intros z; apply inv_mono; unfold jadd; auto).
  unfold step in ST. destruct (p_act s) as [t|] eqn:A; destruct a as [c i|k|t'|c m|m|c i| |t'|t'|]; try discriminate.
  - (* Find *)
    destruct (c <? n) eqn:L; try discriminate. injection ST as <-. unfold do_find.
    destruct (p_q s c) as [|i l] eqn:Q.
    + destruct m; [| |].
      * split; [apply MO, say_inv; simpl; auto|]. exists [Null t]. split; auto. intros. simpl. apply app_nil_r.
      * split; [apply MO, wait_cq_inv; auto|]. exists []. simpl. rewrite app_nil_r. split; auto. intros. apply app_nil_r.
      * split; [apply MO, (wait_cq_inv J s t c BlockTm); auto|]. exists []. simpl. rewrite app_nil_r. split; auto. intros. apply app_nil_r.
    + assert (GO : inv (jadd J (Find c m)) (say (Got t c i) (set_q c l s)) /\ exists tl, p_log (say (Got t c i) (set_q c l s)) = p_log s ++ tl /\
         forall c0, p_q s c0 ++ put_in c0 [Find c m] = handed c0 tl ++ p_q (say (Got t c i) (set_q c l s)) c0).
      { split; [apply MO, got_inv; auto|]. exists [Got t c i]. split; auto. intros c'. simpl. rewrite !app_nil_r. unfold set. rewrite Nat.eqb_sym.
        destruct (Nat.eqb_spec c' c); subst; auto. }
      destruct m; exact GO.
  - (* FindAny *)
    injection ST as <-. unfold do_any. destruct (first_of n s) as [[[c i] l]|] eqn:Fi.
    + apply first_some in Fi as [Hc Q].
      assert (GO : inv (jadd J (FindAny m)) (say (Got t c i) (set_q c l s)) /\ exists tl, p_log (say (Got t c i) (set_q c l s)) = p_log s ++ tl /\
         forall c0, p_q s c0 ++ put_in c0 [FindAny m] = handed c0 tl ++ p_q (say (Got t c i) (set_q c l s)) c0).
      { split; [apply MO, got_inv; auto|]. exists [Got t c i]. split; auto. intros c'. simpl. rewrite !app_nil_r. unfold set. rewrite Nat.eqb_sym.
        destruct (Nat.eqb_spec c' c); subst; auto. }
      destruct m; exact GO.
    + pose proof (proj1 (first_none n s) Fi) as Q. destruct m.
      * split; [apply MO, say_inv; simpl; auto|]. exists [Null t]. split; auto. intros. simpl. apply app_nil_r.
      * split; [apply MO, wait_any_inv; auto|]. exists []. simpl. rewrite app_nil_r. split; auto. intros. apply app_nil_r.
      * split; [apply MO, (wait_any_inv J s t BlockTm); auto|]. exists []. simpl. rewrite app_nil_r. split; auto. intros. apply app_nil_r.
  - (* Post *)
    destruct (c <? n) eqn:L; try discriminate. injection ST as <-. destruct QU as [Q1 Q2]. unfold incoming. rewrite Q1, Q2.
    split; [apply MO, put_inv; auto|]. exists []. rewrite app_nil_r. split; auto. intros c'. rewrite push_acc. simpl. rewrite app_nil_r. auto.
  - (* Compute *)
    injection ST as <-. split; [apply MO, compute_inv; auto|]. exists []. simpl. rewrite app_nil_r. split; auto. intros. apply app_nil_r.
  - (* Start *)
    destruct (p_st s t') eqn:U; try discriminate. injection ST as <-. split; [apply MO, launch_inv; auto|].
    exists []. simpl. rewrite app_nil_r. split; auto. intros. apply app_nil_r.
  - (* Join *)
    assert (NJ : ~ J t') by (apply FR; auto).
    assert (X : forall z, inv (fun x => J x \/ x = t') z -> inv (jadd J (Join t')) z).
    { intros z. apply inv_mono. unfold jadd. intros x [H|H]; subst; auto. }
    destruct (p_st s t') eqn:U; try discriminate; injection ST as <-; unfold do_join; rewrite U.
    + split; [apply X, join_wait_inv; auto; congruence|]. exists []. simpl. rewrite app_nil_r. split; auto. intros. apply app_nil_r.
    + split; [apply X, join_wait_inv; auto; congruence|]. exists []. simpl. rewrite app_nil_r. split; auto. intros. apply app_nil_r.
    + unfold delete. rewrite U. split; [apply X; eapply join_done_inv; eauto|]. exists []. simpl. rewrite app_nil_r. split; auto. intros. apply app_nil_r.
    + exfalso. apply NJ. pose proof (i_thr _ _ I t') as T. unfold thr_ok in T. rewrite U in T. apply T.
  - (* Exit *)
    injection ST as <-. destruct (exit_inv J s t I A) as (X1 & X2 & X3). split; auto. exists []. rewrite X3, app_nil_r. split; auto.
    intros c. rewrite X2. simpl. apply app_nil_r.
  - (* Arrive *)
    destruct (Nat.ltb_spec c n) as [L|L]; try discriminate. injection ST as <-.
    destruct (p_pend s c) as [|t r] eqn:P.
    + destruct (p_any s) as [|t r] eqn:P'.
      * unfold incoming. rewrite P, P'. split; [apply MO, put_inv; auto|]. exists []. rewrite app_nil_r. split; auto. intros c'. rewrite push_acc. simpl. rewrite app_nil_r. auto.
      * destruct (arrive_any J s t r c i L I A P P') as (tm & B & X1 & X2 & X3). split; auto.
        eexists; split; [exact X2|]. intros c'. rewrite X3. simpl. rewrite !app_nil_r.
        destruct (Nat.eqb_spec c c'); [subst|rewrite app_nil_r; auto].
        pose proof (i_thr _ _ I t) as T. unfold thr_ok in T. rewrite B in T. destruct T as (_ & _ & T & _). rewrite T by auto. auto.
    + destruct (arrive_cq J s t r c i I A P) as (tm & B & X1 & X2 & X3). split; auto.
      eexists; split; [exact X2|]. intros c'. rewrite X3. simpl. rewrite !app_nil_r.
      destruct (Nat.eqb_spec c c'); [subst|rewrite app_nil_r; auto].
      pose proof (i_thr _ _ I t) as T. unfold thr_ok in T. rewrite B in T. destruct T as (_ & _ & T & _). rewrite T by auto. auto.
  - (* Fire *)
    destruct (cut k (p_ev s)) as [[e r]|] eqn:C; try discriminate. injection ST as <-.
    destruct (cut_causes _ _ _ _ 0 C) as (u & v & E & ->). destruct e as [t w|t j].
    + destruct (fire_wake J s t w u v I A E) as (X1 & X2 & b & B & X3 & X4). split; auto. eexists; split; [exact X4|].
      intros c. rewrite X2. simpl. apply app_nil_r.
    + destruct (fire_tmo J s t j u v I A E) as (X1 & X2 & tl & X3 & X4 & _). split; auto. exists tl. split; auto.
      intros c. rewrite X2, X4. simpl. apply app_nil_r.
  - (* Launch *)
    destruct (p_st s t') eqn:U; try discriminate. injection ST as <-. split; [apply MO, launch_inv; auto|].
    exists []. simpl. rewrite app_nil_r. split; auto. intros. apply app_nil_r.
Qed.

Lemma start_inv : forall J, inv J start.
Proof. intros. constructor; simpl; intros; try discriminate; try contradiction; try (split; [constructor|contradiction]). all: first [reflexivity | split; discriminate | auto]. Qed.

Theorem good_inv : forall l s, good n l s -> inv (joined l) s.
Proof.
  intros l s H. induction H as [|l s a s' G IH Q F S]; [apply start_inv|].
  destruct (step_ok _ _ _ _ IH Q F S) as [X _]. revert X. apply inv_mono. unfold jadd, joined. intros t [H| ->]; apply in_or_app; simpl; auto.
Qed.
Theorem good_items : forall l s, good n l s -> forall c, put_in c l = handed c (p_log s) ++ p_q s c.
Proof.
  intros l s H. induction H as [|l s a s' G IH Q F S]; intros c; [reflexivity|].
  destruct (step_ok _ _ _ _ (good_inv _ _ G) Q F S) as (_ & tl & L & X).
  unfold put_in, handed in *. rewrite L, !flat_map_app, IH, <- !app_assoc. f_equal. apply X.
Qed.
End P.
