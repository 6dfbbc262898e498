(* C54: messages that arrive before their collective is started are not lost, and
   completion is reported once. *)
From Coq Require Import List Bool Arith Lia.
From Verif Require Import EnModel ListFacts.
Import ListNotations.

(* ---------- specification ---------- *)

(* The messages for key k, in the order they arrived. *)
Fixpoint arrived {St Msg} (k : nat) (ops : list (op St Msg)) : list Msg :=
  match ops with
  | [] => []
  | OArrive j m :: r => if Nat.eqb j k then m :: arrived k r else arrived k r
  | OStart _ :: r => arrived k r
  end.

Fixpoint started {St Msg} (ops : list (op St Msg)) : list (chain St) :=
  match ops with
  | [] => []
  | OStart c :: r => c :: started r
  | OArrive _ _ :: r => started r
  end.

(* The state of a collective that got these messages, in this order, once each. *)
Definition after {St Msg} (A : actor St Msg) (s0 : St) (l : list Msg) : St :=
  fold_left (a_recv A) l s0.

Definition finished {St Msg} (A : actor St Msg) (ops : list (op St Msg)) (s : stage St) : Prop :=
  a_complete A (after A (snd s) (arrived (fst s) ops)) = true.

Definition keys {St} (c : chain St) : list nat := map fst c.

(* Complete actors stay complete (complete_ is never reset, collective_actor.cc). *)
Definition stays {St Msg} (A : actor St Msg) : Prop :=
  forall s m, a_complete A s = true -> a_complete A (a_recv A s m) = true.

(* What the program does: every collective has a type and tag of its own (C38), a
   chain has at least one collective, and no collective is complete before it got a
   message. *)
Definition well_used {St Msg} (A : actor St Msg) (ops : list (op St Msg)) : Prop :=
  NoDup (concat (map keys (started ops))) /\
  forall c, In c (started ops) -> c <> [] /\
    forall k s0, In (k, s0) c -> a_complete A s0 = false.

(* ---------- proofs ---------- *)

Section S.
Variables St Msg : Type.
Variable A : actor St Msg.
Hypothesis mono : stays A.
Local Notation op := (op St Msg).
Local Notation chain := (chain St).
Local Notation engine := (engine St Msg).
Local Notation fin := (finished A).

Lemma deliver_eq : forall l s b, deliver St Msg A s b l =
  (after A s l, match l with [] => b | _ => a_complete A (after A s l) end).
Proof.
  induction l as [|m l IH]; intros s b; cbn [deliver]; [reflexivity|].
  rewrite IH. unfold after. cbn [fold_left]. destruct l; reflexivity.
Qed.

Lemma arrived_app : forall k a b, arrived k (a ++ b) = arrived k a ++ arrived (St := St) (Msg := Msg) k b.
Proof.
  induction a as [|[c|j m] a IH]; intro b; cbn [arrived app]; auto.
  destruct (Nat.eqb j k); cbn [app]; rewrite IH; reflexivity.
Qed.

Lemma started_app : forall a b, started (a ++ b) = started a ++ started (St := St) (Msg := Msg) b.
Proof. induction a as [|[c|j m] a IH]; intro b; cbn [started app]; rewrite ?IH; auto. Qed.

Lemma after_snoc : forall s l m, after A s (l ++ [m]) = a_recv A (after A s l) m.
Proof. intros. unfold after. rewrite fold_left_app. reflexivity. Qed.

Lemma run_app : forall a b e d,
  run St Msg A e d (a ++ b) = let '(e', d') := run St Msg A e d a in run St Msg A e' d' b.
Proof.
  induction a as [|o a IH]; intros b e d; cbn [run app]; [reflexivity|].
  destruct (step St Msg A e o) as [e' x]. apply IH.
Qed.

Definition waiting (ops : list op) (e : engine) (c : chain) : Prop :=
  forall k s0, In (k, s0) c -> e_act e k = None /\ e_pend e k = arrived k ops.

Fixpoint progress (ops : list op) (e : engine) (c : chain) : Prop :=
  match c with
  | [] => True
  | (k, s0) :: rest =>
    (fin ops (k, s0) /\ e_act e k = None /\ progress ops e rest) \/
    (~ fin ops (k, s0) /\ e_act e k = Some (after A s0 (arrived k ops), rest) /\
     e_pend e k = [] /\ waiting ops e rest)
  end.

Lemma waiting_ext : forall o1 o2 e1 e2 c,
  (forall k, In k (keys c) -> arrived k o1 = arrived k o2 /\ e_act e1 k = e_act e2 k /\
     e_pend e1 k = e_pend e2 k) -> waiting o1 e1 c -> waiting o2 e2 c.
Proof.
  intros o1 o2 e1 e2 c H W k s0 I.
  destruct (H k) as [E1 [E2 E3]]; [apply in_map_iff; exists (k, s0); auto|].
  destruct (W k s0 I). split; congruence.
Qed.

Lemma progress_ext : forall c o1 o2 e1 e2,
  (forall k, In k (keys c) -> arrived k o1 = arrived k o2 /\ e_act e1 k = e_act e2 k /\
     e_pend e1 k = e_pend e2 k) -> progress o1 e1 c -> progress o2 e2 c.
Proof.
  induction c as [|[k s0] c IH]; intros o1 o2 e1 e2 H P; cbn [progress] in *; [exact I|].
  destruct (H k) as [E1 [E2 E3]]; [left; reflexivity|].
  unfold finished in *. cbn [fst snd] in *. rewrite <- E1, <- E2, <- E3.
  assert (H' : forall j, In j (keys c) -> arrived j o1 = arrived j o2 /\ e_act e1 j = e_act e2 j /\
     e_pend e1 j = e_pend e2 j) by (intros; apply H; right; auto).
  destruct P as [[F [N P]]|[F [S' [Q W]]]].
  - left. repeat split; auto. apply (IH _ _ _ _ H' P).
  - right. repeat split; auto.
    + apply (waiting_ext _ _ _ _ _ H' W k0 s1 H0).
    + apply (waiting_ext _ _ _ _ _ H' W k0 s1 H0).
Qed.

Lemma fin_ext : forall c o1 o2, (forall k, In k (keys c) -> arrived k o1 = arrived k o2) ->
  Forall (fin o1) c -> Forall (fin o2) c.
Proof.
  intros c o1 o2 H F. rewrite Forall_forall in *. intros [k s0] I. specialize (F _ I).
  unfold finished in *. cbn [fst snd] in *. rewrite <- H; [exact F|].
  apply in_map_iff. exists (k, s0). auto.
Qed.

Definition incomplete (c : chain) : Prop :=
  forall k s0, In (k, s0) c -> a_complete A s0 = false.

Lemma upd_same : forall B (f : nat -> B) k v, upd f k v k = v.
Proof. intros. unfold upd. rewrite Nat.eqb_refl. reflexivity. Qed.
Lemma upd_other : forall B (f : nat -> B) k v j, j <> k -> upd f k v j = f j.
Proof. intros B f k v j N. unfold upd. destruct (Nat.eqb_spec j k); [contradiction|reflexivity]. Qed.

Definition frame (c : chain) (e e' : engine) : Prop :=
  forall k, ~ In k (keys c) -> e_act e' k = e_act e k /\ e_pend e' k = e_pend e k.

Lemma last_cons : forall (l : list nat) a d, last (a :: l) d = last l a.
Proof.
  induction l as [|b l IH]; intros a d; [reflexivity|].
  change (last (a :: b :: l) d) with (last (b :: l) d). rewrite !IH. reflexivity.
Qed.

Lemma start_spec : forall c e id ops e' d,
  NoDup (keys c) -> incomplete c -> waiting ops e c ->
  start St Msg A e id c = (e', d) ->
  progress ops e' c /\ frame c e e' /\
  ((Forall (fin ops) c /\ d = Some (last (keys c) id)) \/ (~ Forall (fin ops) c /\ d = None)).
Proof.
  induction c as [|[k s0] rest IH]; intros e id ops e' d N IC W E; cbn [start] in E.
  - injection E as <- <-. split; [exact I|]. split; [intros k _; auto|].
    left. split; [constructor|reflexivity].
  - cbn [keys map fst] in N. inversion N as [|? ? N1 N2]; subst.
    destruct (W k s0 (or_introl eq_refl)) as [W1 W2].
    rewrite W2, deliver_eq in E.
    pose proof (IC k s0 (or_introl eq_refl)) as I0.
    set (s := after A s0 (arrived k ops)) in *.
    assert (D : match arrived k ops with [] => false | _ => a_complete A s end = a_complete A s).
    { unfold s. destruct (arrived k ops); [symmetry; exact I0|reflexivity]. }
    rewrite D in E.
    assert (KR : forall j s1, In (j, s1) rest -> j <> k).
    { intros j s1 J ->. apply N1, in_map_iff. exists (k, s1). auto. }
    destruct (a_complete A s) eqn:C.
    + destruct (IH (finish St Msg {| e_act := e_act e; e_pend := upd (e_pend e) k [] |} k)
                   k ops e' d N2) as [P [F R]]; auto.
      * intros j s1 J. apply (IC j s1). right; exact J.
      * intros j s1 J. unfold finish. cbn [e_act e_pend].
        rewrite !upd_other by (apply (KR j s1 J)). apply (W j s1). right; exact J.
      * assert (FK : fin ops (k, s0)) by exact C.
        destruct (F k N1) as [F1 F2]. unfold finish in F1, F2. cbn [e_act e_pend] in F1, F2.
        rewrite upd_same in F1, F2.
        split; [left; auto|]. split.
        -- intros j J. assert (J1 : j <> k) by (intros ->; apply J; left; reflexivity).
           assert (J2 : ~ In j (keys rest)) by (intro; apply J; right; auto).
           destruct (F j J2) as [G1 G2]. unfold finish in G1, G2. cbn [e_act e_pend] in G1, G2.
           rewrite upd_other in G1 by exact J1. rewrite !upd_other in G2 by exact J1. auto.
        -- cbn [keys map fst]. rewrite last_cons. destruct R as [[R1 R2]|[R1 R2]].
           ++ left. split; [constructor; auto|exact R2].
           ++ right. split; [intro Q; inversion Q; auto|exact R2].
    + injection E as <- <-.
      assert (NF : ~ fin ops (k, s0)) by (unfold finished; cbn [fst snd]; fold s; congruence).
      split.
      * right. cbn [e_act e_pend]. rewrite !upd_same. split; [exact NF|].
        split; [reflexivity|]. split; [reflexivity|].
        intros j s1 J. cbn [e_act e_pend]. rewrite !upd_other by (apply (KR j s1 J)).
        apply (W j s1). right; exact J.
      * split.
        -- intros j J. assert (J1 : j <> k) by (intros ->; apply J; left; reflexivity).
           cbn [e_act e_pend]. rewrite !upd_other by exact J1. auto.
        -- right. split; [intro Q; inversion Q; auto|reflexivity].
Qed.

Lemma arrived_same : forall (ops : list op) k m,
  arrived k (ops ++ [OArrive k m]) = arrived k ops ++ [m].
Proof. intros. rewrite arrived_app. cbn. rewrite Nat.eqb_refl. reflexivity. Qed.
Lemma arrived_other : forall (ops : list op) k j m, j <> k ->
  arrived j (ops ++ [OArrive k m]) = arrived j ops.
Proof.
  intros. rewrite arrived_app. cbn. destruct (Nat.eqb_spec k j); [congruence|]. apply app_nil_r.
Qed.

Lemma fin_more : forall ops k m s, fin ops s -> fin (ops ++ [OArrive k m]) s.
Proof.
  intros ops k m [j s0] F. unfold finished in *. cbn [fst snd] in *.
  destruct (Nat.eq_dec j k) as [->|N].
  - rewrite arrived_same, after_snoc. apply mono, F.
  - rewrite arrived_other by exact N. exact F.
Qed.

Lemma arrive_spec : forall c e ops k m e' d,
  NoDup (keys c) -> incomplete c -> progress ops e c -> In k (keys c) ->
  incoming St Msg A e k m = (e', d) ->
  let ops' := ops ++ [OArrive k m] in
  progress ops' e' c /\ frame c e e' /\
  ((Forall (fin ops') c /\ ~ Forall (fin ops) c /\ d = Some (last (keys c) 0)) \/
   ((Forall (fin ops') c <-> Forall (fin ops) c) /\ d = None)).
Proof.
  induction c as [|[k1 s1] rest IH]; intros e ops k m e' d N IC P K E ops'; [destruct K|].
  cbn [keys map fst] in N, K. inversion N as [|? ? N1 N2]; subst.
  assert (KR : forall j s2, In (j, s2) rest -> j <> k1).
  { intros j s2 J ->. apply N1, in_map_iff. exists (k1, s2). auto. }
  assert (ICR : incomplete rest) by (intros j s2 J; apply (IC j s2); right; exact J).
  cbn [progress] in P. destruct P as [[F [AN P]]|[NF [AS [PE W]]]].
  - destruct K as [<-|K].
    + (* a message for a collective that is over: kept, harmless *)
      unfold incoming in E. rewrite AN in E. injection E as <- <-.
      assert (X : forall j, In j (keys rest) -> arrived j ops = arrived j ops' /\
        e_act e j = e_act e j /\ e_pend e j = upd (e_pend e) k1 (e_pend e k1 ++ [m]) j).
      { intros j J. assert (J1 : j <> k1) by (intros ->; apply N1, J).
        unfold ops'. rewrite arrived_other by exact J1. rewrite upd_other by exact J1. auto. }
      split; [|split].
      * left. split; [apply fin_more, F|]. split; [exact AN|].
        refine (progress_ext rest ops ops' e _ _ P). exact X.
      * intros j J. cbn [e_act e_pend]. rewrite upd_other; auto.
        intros ->; apply J; left; reflexivity.
      * right. split; [|reflexivity]. split; intro Q; inversion Q as [|? ? Q1 Q2]; subst; constructor; auto.
        -- apply (fin_ext rest ops' ops); [|exact Q2]. intros j J. symmetry. apply (X j J).
        -- apply fin_more, F.
        -- apply (fin_ext rest ops ops'); [|exact Q2]. intros j J. apply (X j J).
    + assert (KN : k <> k1) by (intros ->; auto).
      destruct (IH e ops k m e' d N2 ICR P K E) as [P' [FR D]].
      destruct (FR k1 N1) as [G1 G2].
      assert (F' : fin ops' (k1, s1)) by (apply fin_more, F).
      split; [left; split; [exact F'|split; [congruence|exact P']]|].
      split; [intros j J; apply FR; intro; apply J; right; auto|].
      cbn [keys map fst]. fold (keys rest).
      destruct D as [[D1 [D2 D3]]|[D1 D2]].
      * left. split; [constructor; auto|]. split; [intro Q; inversion Q; auto|].
        rewrite last_cons. rewrite D3. f_equal.
        destruct rest as [|[a b] r]; [destruct K|]. cbn [keys map fst]. rewrite !last_cons. reflexivity.
      * right. split; [|exact D2]. fold ops' in D1.
        split; intro Q; inversion Q; subst; constructor; auto; apply D1; auto.
  - destruct K as [<-|K].
    + (* the active collective *)
      unfold incoming in E. rewrite AS in E.
      rewrite <- after_snoc in E. rewrite <- (arrived_same ops k1 m) in E. fold ops' in E.
      assert (X : forall j, In j (keys rest) -> arrived j ops = arrived j ops').
      { intros j J. unfold ops'. rewrite arrived_other; [reflexivity|]. intros ->; auto. }
      destruct (a_complete A (after A s1 (arrived k1 ops'))) eqn:C.
      * destruct (start_spec rest (finish St Msg e k1) k1 ops' e' d N2 ICR) as [P' [FR D]]; auto.
        { intros j s2 J. unfold finish; cbn [e_act e_pend].
          rewrite !upd_other by (apply (KR j s2 J)). destruct (W j s2 J) as [W1 W2].
          split; [exact W1|]. rewrite W2. apply X. apply in_map_iff. exists (j, s2). auto. }
        destruct (FR k1 N1) as [G1 G2]. unfold finish in G1, G2; cbn [e_act e_pend] in G1, G2.
        rewrite upd_same in G1, G2.
        split; [left; auto|]. split.
        -- intros j J. assert (J1 : j <> k1) by (intros ->; apply J; left; reflexivity).
           destruct (FR j) as [H1 H2]; [intro; apply J; right; auto|].
           unfold finish in H1, H2; cbn [e_act e_pend] in H1, H2.
           rewrite upd_other in H1, H2 by exact J1. auto.
        -- cbn [keys map fst]. fold (keys rest). rewrite last_cons.
           destruct D as [[D1 D2]|[D1 D2]].
           ++ left. split; [constructor; [exact C|exact D1]|].
              split; [intro Q; inversion Q; auto|exact D2].
           ++ right. split; [|exact D2]. split; intro Q; inversion Q; subst; [|contradiction].
              exfalso. apply D1. assumption.
      * injection E as <- <-.
        assert (NF' : ~ fin ops' (k1, s1)) by (unfold finished; cbn [fst snd]; congruence).
        split; [|split].
        -- right. cbn [e_act e_pend]. rewrite upd_same. split; [exact NF'|].
           split; [reflexivity|]. split; [exact PE|].
           intros j s2 J. cbn [e_act e_pend]. rewrite upd_other by (apply (KR j s2 J)).
           destruct (W j s2 J) as [W1 W2]. split; [exact W1|]. rewrite W2. apply X.
           apply in_map_iff. exists (j, s2). auto.
        -- intros j J. cbn [e_act e_pend]. rewrite upd_other; auto.
           intros ->; apply J; left; reflexivity.
        -- right. split; [|reflexivity].
           split; intro Q; inversion Q; contradiction.
    + (* a collective of the chain whose turn has not come *)
      assert (KN : k <> k1) by (intros ->; auto).
      apply in_map_iff in K. destruct K as [[k' s2] [K1 K2]]. cbn in K1. subst k'.
      destruct (W k s2 K2) as [W1 W2].
      unfold incoming in E. rewrite W1 in E. injection E as <- <-.
      assert (Y : arrived k1 ops' = arrived k1 ops)
        by (unfold ops'; apply arrived_other; congruence).
      assert (NF' : ~ fin ops' (k1, s1)) by (unfold finished in *; cbn [fst snd] in *; rewrite Y; exact NF).
      split; [|split].
      * right. cbn [e_act e_pend]. split; [exact NF'|]. rewrite Y. split; [exact AS|].
        rewrite upd_other by congruence. split; [exact PE|].
        intros j s3 J. cbn [e_act e_pend]. destruct (W j s3 J) as [V1 V2]. split; [exact V1|].
        destruct (Nat.eq_dec j k) as [->|JN].
        -- rewrite upd_same, V2. unfold ops'. rewrite arrived_same. reflexivity.
        -- rewrite upd_other by exact JN. rewrite V2. unfold ops'. rewrite arrived_other by exact JN.
           reflexivity.
      * intros j J. cbn [e_act e_pend]. rewrite upd_other; auto.
        intros ->; apply J. right. apply in_map_iff. exists (k, s2). auto.
      * right. split; [|reflexivity]. split; intro Q; inversion Q; contradiction.
Qed.

Definition last_of (c : chain) : nat := last (keys c) 0.

Definition Inv (ops : list op) (e : engine) (done : list nat) : Prop :=
  (forall c, In c (started ops) -> progress ops e c) /\
  (forall k, ~ In k (concat (map keys (started ops))) ->
     e_act e k = None /\ e_pend e k = arrived k ops) /\
  NoDup done /\
  (forall k, In k done <->
     exists c, In c (started ops) /\ Forall (fin ops) c /\ last_of c = k).

Lemma well_used_prefix : forall a b, well_used A (a ++ b) -> well_used A a.
Proof.
  intros a b [N H]. rewrite started_app in *. rewrite map_app, concat_app in N.
  split; [apply nodup_app_iff in N; tauto|]. intros c C. apply H, in_or_app; auto.
Qed.

Lemma in_keys_concat : forall (cs : list chain) c k, In c cs -> In k (keys c) ->
  In k (concat (map keys cs)).
Proof. intros cs c k C K. apply in_concat. exists (keys c). split; [apply in_map, C|exact K]. Qed.

Lemma last_in : forall c : chain, c <> [] -> In (last_of c) (keys c).
Proof.
  intros [|x c] N; [congruence|]. unfold last_of. cbn [keys map].
  clear N. revert x. induction c as [|y c IH]; intro x; [left; reflexivity|].
  cbn [map]. rewrite last_cons. right. specialize (IH y). rewrite last_cons in IH |- *. exact IH.
Qed.

(* keys of different chains are different *)
Lemma chain_of_key : forall (cs : list chain) c1 c2 k, NoDup (concat (map keys cs)) ->
  In c1 cs -> In c2 cs -> In k (keys c1) -> In k (keys c2) -> c1 = c2.
Proof.
  induction cs as [|c cs IH]; intros c1 c2 k N C1 C2 K1 K2; [destruct C1|].
  cbn [map concat] in N. 
  assert (D : forall x, In x (keys c) -> In x (concat (map keys cs)) -> False).
  { intros x X1 X2. clear - N X1 X2. induction (keys c) as [|y l IHl]; [destruct X1|].
    cbn [app] in N. inversion N as [|? ? M1 M2]; subst.
    destruct X1 as [->|X1]; [apply M1, in_or_app; auto|auto]. }
  assert (N' : NoDup (concat (map keys cs))).
  { clear - N. induction (keys c) as [|y l IHl]; [exact N|]. inversion N; auto. }
  destruct C1 as [->|C1], C2 as [->|C2]; auto.
  - exfalso. apply (D k K1). eapply in_keys_concat; eauto.
  - exfalso. apply (D k K2). eapply in_keys_concat; eauto.
  - eapply IH; eauto.
Qed.

Lemma nodup_concat_in : forall (cs : list chain) c, NoDup (concat (map keys cs)) -> In c cs ->
  NoDup (keys c).
Proof.
  induction cs as [|x cs IH]; intros c N C; [destruct C|]. cbn [map concat] in N.
  destruct C as [->|C].
  - clear - N. induction (keys c) as [|y l IHl]; [constructor|]. cbn [app] in N.
    inversion N; subst. constructor; [intro; apply H1, in_or_app; auto|auto].
  - apply IH; [|exact C]. clear - N. induction (keys x) as [|y l IHl]; [exact N|].
    inversion N; auto.
Qed.

Lemma inv_run : forall ops e done, well_used A ops ->
  run St Msg A (fresh St Msg) [] ops = (e, done) -> Inv ops e done.
Proof.
  induction ops as [|o ops IH] using rev_ind; intros e done U E.
  - cbn in E. injection E as <- <-. unfold Inv. cbn. repeat split; auto.
    + intros c [].
    + constructor.
    + intros [].
    + intros [c [[] _]].
  - rewrite run_app in E. destruct (run St Msg A (fresh St Msg) [] ops) as [e1 d1] eqn:R.
    assert (U1 : well_used A ops) by (apply (well_used_prefix _ _ U)).
    destruct (IH e1 d1 U1 eq_refl) as [I1 [I2 [I3 I4]]]. clear IH.
    cbn [run] in E. destruct (step St Msg A e1 o) as [e2 x] eqn:T. injection E as <- D.
    destruct U as [N U]. rewrite started_app in N, U.
    destruct o as [c|k m]; cbn [step] in T; cbn [started] in N, U.
    + (* a start *)
      rewrite map_app, concat_app in N. cbn [map concat] in N. rewrite app_nil_r in N.
      assert (AR : forall k, arrived k (ops ++ [OStart c]) = arrived k ops)
        by (intro k; rewrite arrived_app; cbn; apply app_nil_r).
      destruct (U c) as [CN CI]; [apply in_or_app; right; left; reflexivity|].
      assert (Dj : forall k, In k (keys c) -> ~ In k (concat (map keys (started ops)))).
      { intros k K1 K2. apply nodup_app_iff in N. apply (proj2 (proj2 N) k K2 K1). }
      assert (NC : NoDup (keys c)) by (apply nodup_app_iff in N; tauto).
      destruct (start_spec c e1 0 ops e2 x NC) as [P [F Q]]; auto.
      { intros k s0 K. apply I2, Dj, in_map_iff. exists (k, s0). auto. }
      assert (EX : forall c', In c' (started ops) -> progress (ops ++ [OStart c]) e2 c').
      { intros c' C'. apply (progress_ext c' ops _ e1 e2); [|apply I1, C'].
        intros k K. rewrite AR. destruct (F k) as [G1 G2]; [|auto].
        intro K2. apply (Dj k K2). eapply in_keys_concat; eauto. }
      assert (FE : forall c', Forall (fin (ops ++ [OStart c])) c' <-> Forall (fin ops) c').
      { intro c'. split; apply fin_ext; intros; rewrite AR; reflexivity. }
      unfold Inv. rewrite started_app. cbn [started]. split; [|split; [|split]].
      * intros c' C'. apply in_app_or in C'. destruct C' as [C'|[<-|[]]]; [apply EX, C'|].
        apply (progress_ext c ops _ e2 e2); [|exact P]. intros k K. rewrite AR. auto.
      * intros k K. rewrite map_app, concat_app in K. cbn [map concat] in K.
        rewrite app_nil_r in K. destruct (F k) as [G1 G2].
        { intro; apply K, in_or_app; auto. }
        rewrite G1, G2, AR. apply I2. intro; apply K, in_or_app; auto.
      * subst done. destruct x as [k|]; [|exact I3]. constructor; [|exact I3].
        destruct Q as [[Q1 Q2]|[_ Q2]]; [|discriminate]. injection Q2 as ->.
        intro K. apply I4 in K. destruct K as [c' [C' [_ L']]].
        apply (Dj (last_of c')).
        { rewrite L'. apply (last_in c CN). }
        eapply in_keys_concat; [exact C'|]. apply last_in. apply U, in_or_app; auto.
      * intro k. subst done. split.
        -- intro K.
           assert (KO : In k d1 \/ (Forall (fin ops) c /\ last_of c = k)).
           { destruct Q as [[Q1 Q2]|[_ Q2]]; rewrite Q2 in K; [|auto].
             destruct K as [<-|K]; auto. }
           destruct KO as [K1|[K1 K2]].
           ++ apply I4 in K1. destruct K1 as [c' [C' [F' L']]]. exists c'.
              split; [apply in_or_app; auto|]. split; [apply FE, F'|exact L'].
           ++ exists c. split; [apply in_or_app; right; left; reflexivity|].
              split; [apply FE, K1|exact K2].
        -- intros [c' [C' [F' L']]]. apply FE in F'. apply in_app_or in C'.
           assert (KO : In k d1 \/ x = Some k).
           { destruct C' as [C'|[<-|[]]].
             - left. apply I4. exists c'. auto.
             - right. destruct Q as [[_ Q2]|[Q1 _]]; [|contradiction]. rewrite Q2. f_equal. exact L'. }
           destruct KO as [K1 | ->]; [destruct x; [right|]; auto|left; reflexivity].
    + (* a message *)
      cbn [app] in *. rewrite app_nil_r in N.
      assert (AO : forall j, j <> k -> arrived j (ops ++ [OArrive k m]) = arrived j ops)
        by (intros; apply arrived_other; auto).
      unfold Inv. rewrite started_app. cbn [started]. rewrite app_nil_r.
      destruct (in_dec Nat.eq_dec k (concat (map keys (started ops)))) as [KI|KI].
      * apply in_concat in KI. destruct KI as [ks [KS K]]. apply in_map_iff in KS.
        destruct KS as [c [<- C]].
        assert (NC : NoDup (keys c)) by (apply (nodup_concat_in _ c N C)).
        destruct (U c) as [CN CI]; [rewrite app_nil_r; exact C|].
        destruct (arrive_spec c e1 ops k m e2 x NC CI (I1 c C) K T) as [P [F Q]].
        assert (OT : forall c', In c' (started ops) -> c' = c \/
          (forall j, In j (keys c') -> j <> k /\ ~ In j (keys c))).
        { intros c' C'. destruct (in_dec Nat.eq_dec k (keys c')) as [K'|K'].
          - left. eapply chain_of_key; eauto.
          - destruct (list_eq_dec Nat.eq_dec (keys c') (keys c)) as [Z|Z].
            + exfalso. apply K'. rewrite Z. exact K.
            + right. intros j J. split; [intros ->; auto|].
              intro J2. apply Z. f_equal. eapply chain_of_key; eauto. }
        assert (FO : forall c', In c' (started ops) -> c' <> c ->
          (Forall (fin (ops ++ [OArrive k m])) c' <-> Forall (fin ops) c')).
        { intros c' C' NE. destruct (OT c' C') as [->|O]; [congruence|].
          split; apply fin_ext; intros j J; [|symmetry]; apply AO; apply (O j J). }
        split; [|split; [|split]].
        -- intros c' C'. destruct (OT c' C') as [->|O]; [exact P|].
           apply (progress_ext c' ops _ e1 e2); [|apply I1, C'].
           intros j J. destruct (O j J) as [J1 J2]. rewrite AO by exact J1.
           destruct (F j J2). auto.
        -- intros j J. assert (J1 : j <> k).
           { intros ->. apply J. eapply in_keys_concat; eauto. }
           destruct (F j) as [G1 G2]; [intro; apply J; eapply in_keys_concat; eauto|].
           rewrite G1, G2, AO by exact J1. apply I2, J.
        -- subst done. destruct x as [q|]; [|exact I3]. constructor; [|exact I3].
           destruct Q as [[Q1 [Q2 Q3]]|[_ Q3]]; [|discriminate]. injection Q3 as ->.
           intro KD. apply I4 in KD. destruct KD as [c' [C' [F' L']]].
           assert (c' = c).
           { assert (c' <> []) by (apply U; rewrite app_nil_r; exact C').
             eapply (chain_of_key (started ops) c' c (last_of c')); eauto.
             - apply last_in; auto.
             - rewrite L'. apply (last_in c CN). }
           subst c'. auto.
        -- intro q. subst done. split.
           ++ intro KD.
              assert (KO : In q d1 \/ (Forall (fin (ops ++ [OArrive k m])) c /\ last_of c = q)).
              { destruct Q as [[Q1 [Q2 Q3]]|[_ Q3]]; rewrite Q3 in KD; [|auto].
                destruct KD as [<-|KD]; auto. }
              destruct KO as [K1|[K1 K2]].
              ** apply I4 in K1. destruct K1 as [c' [C' [F' L']]]. exists c'. split; [exact C'|].
                 split; [|exact L']. rewrite Forall_forall in *. intros s S'.
                 apply fin_more, F', S'.
              ** exists c. auto.
           ++ intros [c' [C' [F' L']]].
              assert (KO : In q d1 \/ x = Some q).
              { destruct Q as [[Q1 [Q2 Q3]]|[Q1 Q3]].
                - destruct (OT c' C') as [->|O].
                  + right. rewrite Q3. f_equal. exact L'.
                  + left. apply I4. exists c'. split; [exact C'|]. split; [|exact L'].
                    apply FO; auto. intros ->. destruct (O k K). congruence.
                - left. apply I4. exists c'. split; [exact C'|]. split; [|exact L'].
                  destruct (OT c' C') as [->|O]; [apply Q1, F'|].
                  apply FO; auto. intros ->. destruct (O k K). congruence. }
              destruct KO as [K1 | ->]; [destruct x; [right|]; auto|left; reflexivity].
      * (* nobody has started this one yet: kept *)
        destruct (I2 k KI) as [K1 K2]. unfold incoming in T. rewrite K1 in T. injection T as <- <-.
        subst done.
        assert (FO : forall c', In c' (started ops) ->
          (Forall (fin (ops ++ [OArrive k m])) c' <-> Forall (fin ops) c')).
        { intros c' C'. split; apply fin_ext; intros j J; [|symmetry]; apply AO; intros ->;
            apply KI; eapply in_keys_concat; eauto. }
        split; [|split; [|split]].
        -- intros c' C'. apply (progress_ext c' ops _ e1 _); [|apply I1, C'].
           intros j J. assert (J1 : j <> k) by (intros ->; apply KI; eapply in_keys_concat; eauto).
           cbn [e_act e_pend]. rewrite AO, upd_other by exact J1. auto.
        -- intros j J. cbn [e_act e_pend]. destruct (Nat.eq_dec j k) as [->|JN].
           ++ split; [exact K1|]. rewrite upd_same, K2, arrived_same. reflexivity.
           ++ rewrite upd_other, AO by exact JN. apply I2, J.
        -- exact I3.
        -- intro q. rewrite I4. split; intros [c' [C' [F' L']]]; exists c'; repeat split; auto;
             apply FO; auto.
Qed.

Lemma progress_split : forall pre k s0 rest ops e, progress ops e (pre ++ (k, s0) :: rest) ->
  Forall (fin ops) pre -> progress ops e ((k, s0) :: rest).
Proof.
  induction pre as [|[j t] pre IH]; intros k s0 rest ops e P F; cbn [app] in P; [exact P|].
  inversion F as [|? ? F1 F2]; subst. cbn [progress] in P.
  destruct P as [[_ [_ P]]|[NF _]]; [apply (IH _ _ _ _ _ P F2)|contradiction].
Qed.

(* C54: whatever the interleaving of starts and arrivals, a collective whose turn has
   come has received every message that arrived for it so far, in arrival order and
   once each, no matter which arrived before it was started. *)
Theorem early_messages_kept : forall ops e done c pre k s0 rest, well_used A ops ->
  run St Msg A (fresh St Msg) [] ops = (e, done) ->
  In c (started ops) -> c = pre ++ (k, s0) :: rest -> Forall (fin ops) pre ->
  ~ fin ops (k, s0) ->
  e_act e k = Some (after A s0 (arrived k ops), rest) /\ e_pend e k = [].
Proof.
  intros ops e done c pre k s0 rest U R C -> F NF.
  destruct (inv_run ops e done U R) as [I1 _]. specialize (I1 _ C).
  apply progress_split in I1; [|exact F]. cbn [progress] in I1. tauto.
Qed.

(* Messages for a collective nobody has started yet are all held, in order. *)
Theorem unstarted_messages_held : forall ops e done k, well_used A ops ->
  run St Msg A (fresh St Msg) [] ops = (e, done) ->
  ~ In k (concat (map keys (started ops))) ->
  e_act e k = None /\ e_pend e k = arrived k ops.
Proof.
  intros ops e done k U R K. destruct (inv_run ops e done U R) as [_ [I2 _]]. apply I2, K.
Qed.

(* A chain is reported done once, and exactly when all its collectives have got the
   messages that complete them. *)
Theorem completion_reported_once_partial : forall ops e done, well_used A ops ->
  run St Msg A (fresh St Msg) [] ops = (e, done) ->
  NoDup done /\
  forall c, In c (started ops) ->
    (In (last_of c) done <-> Forall (fin ops) c).
Proof.
  intros ops e done U R. destruct (inv_run ops e done U R) as [_ [_ [I3 I4]]].
  split; [exact I3|]. intros c C. rewrite I4. split.
  - intros [c' [C' [F L]]].
    assert (c' = c); [|subst; exact F].
    destruct U as [N U].
    eapply (chain_of_key (started ops) c' c (last_of c')); eauto.
    + apply last_in, U, C'.
    + rewrite L. apply last_in, U, C.
  - intro F. exists c. auto.
Qed.

(* And nothing else is ever reported. *)
Theorem nothing_else_reported : forall ops e done k, well_used A ops ->
  run St Msg A (fresh St Msg) [] ops = (e, done) -> In k done ->
  exists c, In c (started ops) /\ last_of c = k.
Proof.
  intros ops e done k U R K. destruct (inv_run ops e done U R) as [_ [_ [_ I4]]].
  apply I4 in K. destruct K as [c [C [_ L]]]. eauto.
Qed.

End S.
Print Assumptions early_messages_kept.
Print Assumptions unstarted_messages_held.
Print Assumptions completion_reported_once_partial.
Print Assumptions nothing_else_reported.

(* An actor that collects its messages and is complete after need of them. *)
Definition collector : actor (nat * list nat) nat :=
  {| a_recv := fun s m => (fst s, snd s ++ [m]);
     a_complete := fun s => fst s <=? length (snd s) |}.

(* A collective that needs no message (a communicator of one rank) is finished by
   start(), and nobody ever hears of it; a chain stops there. *)
Theorem completion_lost_refuted : exists ops : list (op (nat * list nat) nat),
  NoDup (concat (map keys (started ops))) /\ stays collector /\
  (forall c, In c (started ops) -> c <> [] /\ Forall (finished collector ops) c) /\
  started ops <> [] /\
  snd (run _ _ collector (fresh _ _) [] ops) = [].
Proof.
  exists [OStart [(7, (1, [])); (8, (0, [])); (9, (1, []))]; OArrive 9 5; OArrive 7 3].
  split.
  { cbn. repeat constructor; cbn; lia. }
  split.
  { intros [n l] m. cbn. rewrite app_length, !Nat.leb_le. cbn. lia. }
  split; [|split; [discriminate|reflexivity]].
  intros c [<-|[]]. split; [discriminate|]. repeat constructor.
Qed.
Print Assumptions completion_lost_refuted.

Lemma collector_stays : stays collector.
Proof. intros [n l] m. cbn. rewrite app_length, !Nat.leb_le. cbn. lia. Qed.

(* Messages 1, 2 for collective 4 and 3 for collective 5 come before the start, 6 after. *)
Definition ex_ops : list (op (nat * list nat) nat) :=
  [OArrive 4 1; OArrive 5 3; OArrive 4 2; OStart [(4, (2, [])); (5, (2, []))];
   OStart [(6, (1, []))]; OArrive 5 6].

Example engine_example :
  well_used collector ex_ops /\
  snd (run _ _ collector (fresh _ _) [] ex_ops) = [5] /\
  e_act (fst (run _ _ collector (fresh _ _) [] (removelast ex_ops))) 5 = Some ((2, [3]), []) /\
  e_act (fst (run _ _ collector (fresh _ _) [] ex_ops)) 6 = Some ((1, []), []).
Proof.
  split; [|repeat split].
  split.
  - cbn. repeat constructor; cbn; lia.
  - intros c [<-|[<-|[]]]; (split; [discriminate|]); intros k s0 H; cbn in H;
      repeat (destruct H as [H|H]; [injection H as <- <-; reflexivity|]); destruct H.
Qed.
