(** Where calls come from and when nothing fails on a node. *)
From Coq Require Import List Arith Bool ZArith Lia Permutation.
From Verif Require Import NdModel NdSpec NdProof.
Import ListNotations.

(** How a transport changes by an operation of its process. *)
Definition moved (k : key) (a : op) (t t' : tport) : Prop :=
  (queues t' = queues t /\ incl (held t) (held t')) \/
  (a = AllocId k /\ t' = snd (tp_alloc_id t)) \/
  (exists i h, a = AllocCq k i h /\ tp_alloc_cq i h t = Ok t') \/
  (exists i, a = DeallocCq k i /\ t' = tp_dealloc i t).

(** What is recorded by an operation. *)
Definition reported (a : op) (n : node) (e : key * outcome * msg) : Prop :=
  let '(k, x, m) := e in
  m_key m = k /\
  match x with
  | Handed h => exists t c, (runs k t n \/ (a = Start k /\ queues t = queues new_tport)) /\
                  m_cq m = Some c /\ nth_error (queues t) c = Some (Some h)
  | Nulled => m_cq m = None
  | Abandoned => a = Stop k
  end.

Lemma tp_incoming_out m t t' o : tp_incoming m t = Ok (t', o) ->
  incl (held t) (held t') /\
  forall k x m', In (k, x, m') o -> m' = m /\ k = m_key m /\
    match x with
    | Handed h => exists c, m_cq m = Some c /\ nth_error (queues t) c = Some (Some h)
    | Nulled => m_cq m = None
    | Abandoned => False
    end.
Proof.
  unfold tp_incoming. destruct (m_cq m) as [c|].
  - destruct (nth_error (queues t) c) as [[h|]|] eqn:Q; try discriminate; intros [= <- <-]; split; simpl;
      auto using incl_refl, incl_appl; try tauto.
    intros k x m' [[= <- <- <-]|[]]. eauto.
  - intros [= <- <-]; split; auto using incl_refl. intros k x m' [[= <- <- <-]|[]]. auto.
Qed.
Lemma tp_all_out k0 l : forall t t' o, (forall m, In m l -> m_key m = k0) -> tp_all l t = Ok (t', o) ->
  incl (held t) (held t') /\
  forall k x m', In (k, x, m') o -> k = k0 /\ m_key m' = k0 /\
    match x with
    | Handed h => exists c, m_cq m' = Some c /\ nth_error (queues t) c = Some (Some h)
    | Nulled => m_cq m' = None
    | Abandoned => False
    end.
Proof.
  induction l as [|m l IH]; simpl; intros t t' o Hk E.
  - injection E as <- <-. split; auto using incl_refl. intros ? ? ? [].
  - destruct (tp_incoming m t) as [[t1 o1]|] eqn:E1; [|discriminate]. simpl in E.
    destruct (tp_all l t1) as [[t2 o2]|] eqn:E2; [|discriminate]. injection E as <- <-.
    destruct (tp_incoming_out _ _ _ _ E1) as [A1 A2].
    destruct (IH _ _ _ (fun x hx => Hk x (or_intror hx)) E2) as [B1 B2].
    split; [eapply incl_tran; eauto|]. intros k x m' Hi. apply in_app_iff in Hi as [Hi|Hi].
    + apply A2 in Hi as (-> & -> & Hi). repeat split; auto.
    + apply B2 in Hi as (-> & Hk' & Hi). repeat split; auto.
      apply tp_incoming_queues in E1 as [E1 _]. now rewrite E1 in Hi.
Qed.

Lemma call_out l m n n' : call l m n = Ok n' -> exists o, out n' = out n ++ o /\
  (forall e, In e o -> reported RunNext n e) /\
  (forall k t, runs k t n -> exists t', runs k t' n' /\ queues t' = queues t /\ incl (held t) (held t')) /\
  (forall k t', runs k t' n' -> exists t, runs k t n /\ queues t' = queues t /\ incl (held t) (held t')).
Proof.
  intros E. unfold call in E. destruct (srv n) as [s|] eqn:S; [|discriminate].
  destruct (gen s =? l); [|discriminate]. unfold srv_incoming in E.
  destruct (find2 (m_key m) (procs s)) as [[t|]|] eqn:Q.
  - destruct (tp_incoming m t) as [[t1 o1]|] eqn:E1; [|discriminate]. simpl in E. injection E as <-.
    destruct (tp_incoming_out _ _ _ _ E1) as [A1 A2]. apply tp_incoming_queues in E1 as [E1 _].
    exists o1. split; [reflexivity|]. split; [|split].
    + intros [[k x] m'] Hi. apply A2 in Hi as (-> & -> & Hi). split; auto.
      destruct x; auto; [|contradiction]. destruct Hi as (c & C1 & C2). exists t, c. split; auto.
      left. exists s. auto.
    + intros k u (s' & S' & U). rewrite S in S'. injection S' as <-.
      destruct (keq_spec k (m_key m)) as [->|N].
      * rewrite Q in U. injection U as <-. exists t1. split; [|auto]. eexists. split; [reflexivity|].
        apply find2_put_same.
      * exists u. split; [|split; auto using incl_refl]. eexists. split; [reflexivity|]. cbn [procs].
        now rewrite find2_put_other.
    + intros k u (s' & [= <-] & U). cbn [procs] in U. destruct (keq_spec k (m_key m)) as [->|N].
      * rewrite find2_put_same in U. injection U as <-. exists t. split; [|auto]. exists s. auto.
      * rewrite find2_put_other in U by auto. exists u. split; [|split; auto using incl_refl].
        exists s. auto.
  - simpl in E. injection E as <-. exists []. split; [reflexivity|]. split; [intros ? []|split].
    + intros k u (s' & S' & U). rewrite S in S'. injection S' as <-.
      assert (k <> m_key m) by congruence.
      exists u. split; [|split; auto using incl_refl]. eexists. split; [reflexivity|]. cbn [procs].
      now rewrite find2_put_other.
    + intros k u (s' & [= <-] & U). cbn [procs] in U. destruct (keq_spec k (m_key m)) as [->|N].
      * rewrite find2_put_same in U. discriminate.
      * rewrite find2_put_other in U by auto. exists u. split; [|split; auto using incl_refl].
        exists s. auto.
  - simpl in E. injection E as <-. exists []. split; [reflexivity|]. split; [intros ? []|split].
    + intros k u (s' & S' & U). rewrite S in S'. injection S' as <-.
      assert (k <> m_key m) by congruence.
      exists u. split; [|split; auto using incl_refl]. eexists. split; [reflexivity|]. cbn [procs].
      now rewrite find2_put_other.
    + intros k u (s' & [= <-] & U). cbn [procs] in U. destruct (keq_spec k (m_key m)) as [->|N].
      * rewrite find2_put_same in U. discriminate.
      * rewrite find2_put_other in U by auto. exists u. split; [|split; auto using incl_refl].
        exists s. auto.
Qed.

Lemma reported_mono a b n e : (forall k, b <> Start k) -> (forall k, b <> Stop k) ->
  reported b n e -> reported a n e.
Proof.
  destruct e as [[k x] m]. intros B1 B2 [R1 R2]. split; auto. destruct x; auto.
  - destruct R2 as (t & c & [R|[R _]] & R3); [|now apply B1 in R]. exists t, c. auto.
  - now apply B2 in R2.
Qed.

(** Start, taken apart. *)
Lemma start_step k0 n n' : inv n -> step (Start k0) n = Ok n' -> exists n1 s s' o,
  srv n1 = Some s /\ srv_register k0 new_tport s = Ok (s', o) /\ srv_ok s /\ made n <= made n1 /\
  n' = mknode (nos n1) (Some s') (made n1) (out n1 ++ o) /\ out n1 = out n /\
  (srv n = Some s /\ n1 = n \/
   srv n = None /\ s = mksrv (made n) [] [] /\ nos n1 = os_register (made n) server_name (nos n)).
Proof.
  intros I E. cbn [step] in E. destruct (srv n) as [s|] eqn:S.
  - destruct (i_some n I s S) as (A1 & A2 & A3 & A4 & A5 & A6). rewrite A1 in E. cbn [bind] in E.
    unfold the_server in E. rewrite A1, S, Nat.eqb_refl in E. cbn [bind] in E.
    destruct (srv_register k0 new_tport s) as [[s' o]|] eqn:R; [|discriminate]. cbn [bind] in E.
    injection E as <-. exists n, s, s', o. auto 10.
  - pose proof (i_none n I S) as A. rewrite A in E. cbn [bind] in E.
    unfold the_server, os_register in E. cbn [nos libs srv gen] in E.
    rewrite find1_put_same, Nat.eqb_refl in E. cbn [bind] in E.
    destruct (srv_register k0 new_tport (mksrv (made n) [] [])) as [[s' o]|] eqn:R; [|discriminate].
    cbn [bind] in E. injection E as <-.
    exists (mknode (os_register (made n) server_name (nos n)) (Some (mksrv (made n) [] []))
              (Datatypes.S (made n)) (out n)), (mksrv (made n) [] []), s', o.
    cbn [srv nos made out]. repeat (split; [first [reflexivity|assumption|lia|idtac]|]); auto.
    + split; simpl; intros; try contradiction; try discriminate. constructor.
Qed.

Lemma on_tport_out a k0 f n n' : on_tport k0 f n = Ok n' ->
  (forall t t', f t = Ok t' -> moved k0 a t t' /\ held t' = held t) ->
  out n' = out n /\ nos n' = nos n /\
  (forall k t, runs k t n -> exists t', runs k t' n' /\ moved k a t t' /\ incl (held t) (held t')) /\
  (forall k t', runs k t' n' -> exists t, runs k t n /\ moved k a t t').
Proof.
  intros E Hf. unfold on_tport in E. destruct (srv n) as [s|] eqn:S; [|discriminate].
  destruct (find2 k0 (procs s)) as [[t|]|] eqn:Q; try discriminate.
  destruct (f t) as [t1|] eqn:E1; [|discriminate]. simpl in E. injection E as <-.
  destruct (Hf _ _ E1) as [Hm Hh].
  split; [reflexivity|split; [reflexivity|split]].
  - intros k u (s' & S' & U). rewrite S in S'. injection S' as <-. destruct (keq_spec k k0) as [->|N].
    + rewrite Q in U. injection U as <-. exists t1. split; [|rewrite Hh; auto using incl_refl].
      eexists. split; [reflexivity|]. apply find2_put_same.
    + exists u. split; [|split; auto using incl_refl; left; auto using incl_refl]. eexists. split; [reflexivity|]. cbn [procs].
      now rewrite find2_put_other.
  - intros k u (s' & [= <-] & U). cbn [procs] in U. destruct (keq_spec k k0) as [->|N].
    + rewrite find2_put_same in U. injection U as <-. exists t. split; [|auto]. exists s. auto.
    + rewrite find2_put_other in U by auto. exists u. split; [exists s; auto|].
      left. auto using incl_refl.
Qed.

Lemma step_out a n n' : inv n -> step a n = Ok n' -> exists o, out n' = out n ++ o /\
  (forall e, In e o -> reported a n e) /\
  (forall k t, runs k t n -> a <> Stop k -> exists t', runs k t' n' /\ moved k a t t' /\ incl (held t) (held t')) /\
  (forall k t', runs k t' n' -> a = Start k /\ queues t' = queues new_tport \/
     exists t, runs k t n /\ moved k a t t').
Proof.
  intros I E. destruct a as [m| |k0|k0|k0|k0 i h|k0 i].
  - cbn [step] in E. unfold os_request in E. destruct (find1 server_name (libs (nos n))) as [l|].
    + apply call_out in E as (o & O1 & O2 & O3 & O4). exists o. split; [exact O1|].
      split; [|split].
      * intros e He. apply O2 in He. eapply reported_mono; [| |exact He]; discriminate.
      * intros k t R _. apply O3 in R as (t' & R1 & R2 & R3). exists t'. unfold moved. auto.
      * intros k t R. apply O4 in R as (t' & R1 & R2 & R3). right. exists t'. unfold moved. auto.
    + injection E as <-. exists []. rewrite app_nil_r. split; [reflexivity|]. split; [intros ? []|].
      split; intros k t R; [intros _|right]; exists t; unfold moved; auto using incl_refl.
  - cbn [step] in E. unfold os_next in E. destruct (delayed (nos n)) as [|[l m] d].
    + injection E as <-. exists []. rewrite app_nil_r. split; [reflexivity|]. split; [intros ? []|].
      split; intros k t R; [intros _|right]; exists t; unfold moved; auto using incl_refl.
    + apply call_out in E as (o & O1 & O2 & O3 & O4). exists o. split; [exact O1|].
      split; [|split].
      * intros e He. apply O2 in He. exact He.
      * intros k t R _. apply O3 in R as (t' & R1 & R2 & R3). exists t'. unfold moved. auto.
      * intros k t R. apply O4 in R as (t' & R1 & R2 & R3). right. exists t'. unfold moved. auto.
  - destruct (start_step k0 n n' I E) as (n1 & s & s' & o & S & R & SO & MD & -> & ON & W).
    exists o. cbn [out]. rewrite ON. split; [reflexivity|].
    destruct (srv_register_spec k0 s s' o SO R) as (B1 & B2 & B3 & (t0 & B4 & B4') & B5 & B6).
    assert (NR : forall t, ~ runs k0 t n).
    { intros t (x & X1 & X2). destruct W as [[W1 W2]|[W _]]; [|congruence].
      rewrite W1 in X1. injection X1 as <-. unfold srv_register in R. rewrite X2 in R. discriminate. }
    split; [|split].
    + intros [[k x] m'] Hi. unfold srv_register in R.
      assert (R' : bind (tp_all (filter (for_key k0) (waiting s)) new_tport)
        (fun '(t', o) => Ok (mksrv (gen s) (put2 k0 (Some t') (procs s))
         (filter (fun m => negb (for_key k0 m)) (waiting s)), o)) = Ok (s', o)).
      { destruct (find2 k0 (procs s)) as [[|]|]; try discriminate; exact R. }
      destruct (tp_all _ new_tport) as [[t' o']|] eqn:T; [|discriminate]. cbn [bind] in R'.
      injection R' as _ <-. apply (tp_all_out k0) in T as [_ T].
      * apply T in Hi as (-> & K & Hi). split; auto. destruct x; auto; [|contradiction].
        destruct Hi as (c & C1 & C2). exists new_tport, c. auto.
      * intros m Hm. apply filter_In in Hm as [_ Hm]. unfold for_key in Hm.
        now destruct (keq_spec (m_key m) k0).
    + intros k t Rk _. destruct (keq_spec k k0) as [->|N]; [now apply NR in Rk|].
      exists t. split; [|unfold moved; auto using incl_refl]. destruct Rk as (x & X1 & X2).
      destruct W as [[W1 W2]|[W _]]; [|congruence]. rewrite W1 in X1. injection X1 as <-.
      exists s'. split; [reflexivity|]. now rewrite B5.
    + intros k t (x & [= <-] & X2). destruct (keq_spec k k0) as [->|N].
      * left. split; auto. congruence.
      * right. rewrite B5 in X2 by auto. exists t. split; [|unfold moved; auto using incl_refl].
        destruct W as [[W1 W2]|[W1 [W2 W3]]]; [exists s; auto|]. rewrite W2 in X2. discriminate.
  - cbn [step] in E. destruct (the_server n) as [s|] eqn:T; [|discriminate]. cbn [bind] in E.
    pose proof (the_server_ok n s I T) as S.
    destruct (i_some n I s S) as (A1 & A2 & A3 & A4 & A5 & [H1 H2 H3 H4]).
    destruct (find2 k0 (procs s)) as [[t|]|] eqn:Q; try discriminate. unfold srv_unregister in E.
    exists (map (fun p => (k0, Abandoned, snd p)) (held t)).
    assert (O : out n' = out n ++ map (fun p => (k0, Abandoned, snd p)) (held t))
      by (destruct (del2 k0 (procs s)); injection E as <-; reflexivity).
    split; [exact O|]. split; [|split].
    + intros [[k x] m'] Hi. apply in_map_iff in Hi as ([c m] & [= <- <- <-] & Hi). simpl.
      apply (H2 _ _ Q) in Hi as (Hi & _). auto.
    + intros k u (x & X1 & X2) N. rewrite S in X1. injection X1 as <-.
      exists u. split; [|unfold moved; auto using incl_refl].
      assert (N' : k <> k0) by congruence. rewrite <- (find2_del_other k0) in X2 by auto.
      destruct (del2 k0 (procs s)); [discriminate|]. injection E as <-. eexists. split; [reflexivity|]. exact X2.
    + intros k u (x & X1 & X2). right. exists u. split; [|unfold moved; auto using incl_refl].
      exists s. split; auto. destruct (del2 k0 (procs s)) as [|p l] eqn:D; injection E as <-; [discriminate|].
      injection X1 as <-. cbn [procs] in X2. rewrite <- D in X2. destruct (keq_spec k k0) as [->|N].
      * now rewrite find2_del_same in X2.
      * now rewrite find2_del_other in X2.
  - cbn [step] in E. apply (on_tport_out (AllocId k0)) in E as (O1 & O2 & O3 & O4).
    + exists []. rewrite app_nil_r. split; [auto|split; [intros ? []|split]]; auto.
    + intros t t' F. split; [|now destruct (alloc_id_fine k0 t t' F)].
      right. left. injection F as <-. auto.
  - cbn [step] in E. apply (on_tport_out (AllocCq k0 i h)) in E as (O1 & O2 & O3 & O4).
    + exists []. rewrite app_nil_r. split; [auto|split; [intros ? []|split]]; auto.
    + intros t t' F. split; [|now destruct (alloc_cq_fine k0 _ _ t t' F)].
      right. right. left. eauto.
  - cbn [step] in E. apply (on_tport_out (DeallocCq k0 i)) in E as (O1 & O2 & O3 & O4).
    + exists []. rewrite app_nil_r. split; [auto|split; [intros ? []|split]]; auto.
    + intros t t' F. split; [|now destruct (dealloc_fine k0 i t t' F)].
      right. right. right. injection F as <-. eauto.
Qed.

(** *** Nothing fails when the node is used properly *)
Definition bound (n : node) : Prop :=
  forall x, In x (delayed (nos n)) -> exists s, srv n = Some s /\ fst x = gen s.

Lemma call_total m n s : srv n = Some s -> installed n ->
  exists n', call (gen s) m n = Ok n' /\ exists s', srv n' = Some s' /\ gen s' = gen s.
Proof.
  intros S H. unfold call. rewrite S, Nat.eqb_refl. unfold srv_incoming.
  destruct (find2 (m_key m) (procs s)) as [[t|]|] eqn:Q.
  - destruct (tp_incoming_total m t) as (t' & o & E); [apply (H (m_key m)); exists s; auto|].
    rewrite E. simpl. eexists; split; [reflexivity|]. eexists; split; reflexivity.
  - simpl. eexists; split; [reflexivity|]. eexists; split; reflexivity.
  - simpl. eexists; split; [reflexivity|]. eexists; split; reflexivity.
Qed.
Lemma on_tport_total k f t n : runs k t n -> (exists t', f t = Ok t') ->
  exists n', on_tport k f n = Ok n' /\ nos n' = nos n /\
   forall s, srv n = Some s -> exists s', srv n' = Some s' /\ gen s' = gen s.
Proof.
  intros (s & S & Q) [t' E]. unfold on_tport. rewrite S, Q, E. simpl.
  eexists; split; [reflexivity|]. split; [reflexivity|]. intros x [= <-]. eexists; split; reflexivity.
Qed.

Lemma step_total a n : inv n -> bound n -> proper a n -> exists n', step a n = Ok n' /\ bound n'.
Proof.
  intros I B P. destruct a as [m| |k0|k0|k0|k0 i h|k0 i]; cbn [step proper] in *.
  - unfold os_request. destruct (srv n) as [s|] eqn:S.
    + destruct (i_some n I s S) as (A1 & _). rewrite A1.
      destruct (call_total m n s S P) as (n' & E & s' & S' & G).
      assert (EN : mknode (nos n) (Some s) (made n) (out n) = n) by (rewrite <- S; now destruct n).
      rewrite EN. exists n'. split; auto.
      apply call_spec in E as (_ & O & _); auto. intros x Hx. rewrite O in Hx.
      apply B in Hx as (y & Y1 & Y2). rewrite S in Y1. injection Y1 as <-. exists s'. split; auto. congruence.
    + rewrite (i_none n I S). eexists. split; [reflexivity|]. intros x Hx. cbn [nos delayed srv] in *.
      apply B in Hx as (y & Y1 & Y2). congruence.
  - unfold os_next. destruct (delayed (nos n)) as [|[l m] d] eqn:D; [eauto|].
    destruct (B (l, m)) as (s & S & L); [rewrite D; now left|]. simpl in L. subst l.
    set (n1 := mknode _ _ _ _).
    destruct (call_total m n1 s) as (n' & E & s' & S' & G); auto.
    exists n'. split; auto. apply call_spec in E as (_ & O & _).
    + intros x Hx. rewrite O in Hx. simpl in Hx. destruct (B x) as (y & Y1 & Y2); [rewrite D; now right|].
      rewrite S in Y1. injection Y1 as <-. exists s'. split; auto. congruence.
    + split; unfold n1; cbn [nos libs refs pend srv made]; apply I.
  - destruct (srv n) as [s|] eqn:S.
    + destruct (i_some n I s S) as (A1 & A2 & A3 & A4 & A5 & A6). rewrite A1. cbn [bind].
      unfold the_server. rewrite A1, S, Nat.eqb_refl. cbn [bind]. unfold srv_register.
      destruct (tp_all_total (filter (for_key k0) (waiting s)) new_tport) as (t' & o & T);
        [simpl; intuition discriminate|].
      rewrite T. cbn [bind].
      assert (Q : find2 k0 (procs s) = None \/ find2 k0 (procs s) = Some None).
      { destruct (find2 k0 (procs s)) as [[t|]|] eqn:Q; auto. exfalso. apply (P t). exists s. auto. }
      destruct Q as [-> | ->]; cbn [bind]; (eexists; split; [reflexivity|]);
        intros x Hx; cbn [nos srv] in *; apply B in Hx as (y & Y1 & Y2);
        rewrite S in Y1; injection Y1 as <-; eexists; (split; [reflexivity|exact Y2]).
    + rewrite (i_none n I S). cbn [bind]. unfold the_server, os_register. cbn [nos libs srv gen].
      rewrite find1_put_same, Nat.eqb_refl. cbn [bind]. unfold srv_register. cbn [procs find2 waiting filter tp_all bind].
      eexists. split; [reflexivity|]. intros x Hx. cbn [nos delayed srv] in *.
      apply in_app_iff in Hx as [Hx|Hx].
      * apply B in Hx as (y & Y1 & Y2). congruence.
      * apply in_map_iff in Hx as (y & <- & Hx). eexists. split; [reflexivity|]. reflexivity.
  - destruct P as [(t & s & S & Q) D].
    destruct (i_some n I s S) as (A1 & A2 & A3 & A4 & A5 & A6).
    unfold the_server. rewrite A1, S, Nat.eqb_refl. cbn [bind]. rewrite Q. unfold srv_unregister.
    assert (D' : delayed (os_unregister (gen s) server_name (nos n)) = [])
      by (unfold os_unregister; rewrite A2; exact D).
    destruct (del2 k0 (procs s)); (eexists; split; [reflexivity|]); intros x Hx; cbn [nos] in Hx;
      rewrite ?D, ?D' in Hx; contradiction.
  - destruct P as [t R]. destruct (on_tport_total k0 (fun t => Ok (snd (tp_alloc_id t))) t n R) as (n' & E & O & G); [eauto|].
    exists n'. split; auto. intros x Hx. rewrite O in Hx. apply B in Hx as (y & Y1 & Y2).
    apply G in Y1 as (s' & S' & G'). exists s'. split; congruence.
  - destruct P as (t & R & L & HN). destruct (on_tport_total k0 (tp_alloc_cq i h) t n R) as (n' & E & O & G).
    { unfold tp_alloc_cq. apply Nat.ltb_lt in L. rewrite L. destruct (existsb _ _) eqn:X; [|eauto].
      exfalso. apply existsb_exists in X as ([c m] & X1 & X2). simpl in X2. apply Nat.eqb_eq in X2. subst c.
      now apply HN in X1. }
    exists n'. split; auto. intros x Hx. rewrite O in Hx. apply B in Hx as (y & Y1 & Y2).
    apply G in Y1 as (s' & S' & G'). exists s'. split; congruence.
  - destruct P as [t R]. destruct (on_tport_total k0 (fun t => Ok (tp_dealloc i t)) t n R) as (n' & E & O & G); [eauto|].
    exists n'. split; auto. intros x Hx. rewrite O in Hx. apply B in Hx as (y & Y1 & Y2).
    apply G in Y1 as (s' & S' & G'). exists s'. split; congruence.
Qed.

Lemma proper_total l : forall n, inv n -> bound n -> proper_run l n ->
  exists n', run l n = Ok n' /\ bound n'.
Proof.
  induction l as [|a l IH]; simpl; intros n I B P; [eauto|]. destruct P as [P1 P2].
  destruct (step_total a n I B P1) as (n1 & E & B1). rewrite E. simpl. apply IH; auto.
  eapply step_spec; eauto.
Qed.

Lemma drain d : forall n, inv n -> bound n -> installed n -> length (delayed (nos n)) = d ->
  exists n', run (repeat RunNext d) n = Ok n' /\ delayed (nos n') = [].
Proof.
  induction d as [|d IH]; intros n I B H L.
  - exists n. split; auto. now destruct (delayed (nos n)).
  - destruct (step_total RunNext n I B H) as (n1 & E & B1). cbn [repeat run].
    rewrite E. cbn [bind]. destruct (step_spec _ _ _ I E) as [I1 _]. apply IH; auto.
    + destruct (step_out _ _ _ I E) as (o & _ & _ & _ & O4). intros k t R.
      apply O4 in R as [[R _]|(u & R1 & [[R2 _]|[[R2 _]|[(i & h & R2 & _)|(i & R2 & _)]]])]; try discriminate.
      rewrite R2. eapply H; eauto.
    + cbn [step] in E. unfold os_next in E. destruct (delayed (nos n)) as [|[l m] t] eqn:D; [discriminate|].
      apply call_spec in E as (_ & O & _).
      * rewrite O. simpl in *. lia.
      * split; cbn [nos libs refs pend srv made]; apply I.
Qed.
