From Coq Require Import List ZArith Arith Bool Lia Relations.
From Verif Require Import TorusModel NetModel TorusSpec NetSpec TorusProof TorusRoute.
Import ListNotations.

Lemma find_unique : forall A (f : A -> bool) l x, In x l -> f x = true ->
  (forall y, In y l -> f y = true -> y = x) -> find f l = Some x.
Proof.
  induction l; simpl; intros; [contradiction|].
  destruct (f a) eqn:E. f_equal. apply H1; auto.
  destruct H; [subst; congruence|]. apply IHl; auto.
Qed.

(** A cable that is the only one on its port is the one the walk follows. *)
Lemma far_end_in : forall conns n s c t, In c (conns s) -> c_dst c = Z.of_nat t -> t < n ->
  (forall c', In c' (conns s) -> c_outport c' = c_outport c -> c' = c) ->
  far_end conns n s (c_outport c) = Some t.
Proof.
  intros. unfold far_end. rewrite (find_unique _ _ _ c); auto.
  - rewrite H0. destruct (Z.leb_spec 0 (Z.of_nat t)); try lia.
    destruct (Z.ltb_spec (Z.of_nat t) (Z.of_nat n)); try lia. simpl. rewrite Nat2Z.id. auto.
  - apply Nat.eqb_refl.
  - intros y Hy Hp. apply Nat.eqb_eq in Hp. auto.
Qed.

Lemma far_end_cable : forall conns n s p t, far_end conns n s p = Some t ->
  t < n /\ exists c, In c (conns s) /\ c_dst c = Z.of_nat t /\ c_outport c = p.
Proof.
  unfold far_end. intros conns n s p t H. destruct (find _ _) as [c|] eqn:F; try discriminate.
  destruct (_ && _)%bool eqn:G in H; try discriminate. injection H; intros; subst.
  apply andb_true_iff in G. destruct G as [G1 G2]. apply Z.leb_le in G1. apply Z.ltb_lt in G2.
  apply find_some in F. destruct F as [F1 F2]. apply Nat.eqb_eq in F2.
  split; [lia|]. exists c. rewrite Z2Nat.id; auto.
Qed.

Lemma gwalk_hops : forall H conns n (route : nat -> H -> outcome H) fuel s h tr e p,
  gwalk (far_end conns n) route fuel s h = Some (tr, e, p) -> ghops conns (length tr) s e.
Proof.
  induction fuel; simpl; intros; [discriminate|].
  destruct (route s h) as [q|q vc h'|]; try discriminate.
  - injection H0; intros; subst. constructor.
  - destruct (far_end conns n s q) as [s'|] eqn:N; try discriminate.
    destruct (gwalk (far_end conns n) route fuel s' h') as [[[tr' e'] p']|] eqn:W; try discriminate.
    injection H0; intros; subst. simpl.
    apply far_end_cable in N. destruct N as (_ & c & Hc & Hd & _).
    econstructor; eauto.
Qed.

Lemma gwalk_more : forall H next (route : nat -> H -> outcome H) f f' s h r,
  gwalk next route f s h = Some r -> f <= f' -> gwalk next route f' s h = Some r.
Proof.
  induction f; intros; [discriminate|]. destruct f'; [lia|]. cbn [gwalk] in *.
  destruct (route s h); auto. destruct (next s port); auto.
  destruct (gwalk next route f n h0) as [[[? ?] ?]|] eqn:W; try discriminate.
  rewrite (IHf f' _ _ _ W) by lia. auto.
Qed.

(** If each hop moves to a channel of higher rank, there is no cyclic wait. *)
Lemma ranked_walk : forall H (next : nat -> nat -> option nat) (route : nat -> H -> outcome H)
    (Inv : nat -> H -> Prop) (rank : chan -> nat * nat),
  (forall s h p vc h' s', Inv s h -> route s h = Forward p vc h' -> next s p = Some s' -> Inv s' h') ->
  (forall s h p vc h' s' p2 vc2 h2, Inv s h -> route s h = Forward p vc h' -> next s p = Some s' ->
     route s' h' = Forward p2 vc2 h2 -> lex (rank (Chan s p vc)) (rank (Chan s' p2 vc2))) ->
  forall fuel s h tr e p, Inv s h -> gwalk next route fuel s h = Some (tr, e, p) ->
  forall a b, consecutive tr a b -> lex (rank a) (rank b).
Proof.
  intros H next route Inv rank HI HR. induction fuel; intros s h tr e p Hi Hw a b Hab; [discriminate|].
  cbn [gwalk] in Hw. destruct (route s h) as [q|q vc h'|] eqn:R; try discriminate.
  { injection Hw; intros; subst. destruct Hab as (pre & post & E). destruct pre; discriminate. }
  destruct (next s q) as [s'|] eqn:N; try discriminate.
  destruct (gwalk next route fuel s' h') as [[[tr' e'] p']|] eqn:W; try discriminate.
  injection Hw; intros; subst tr e' p'.
  apply consecutive_cons in Hab. destruct Hab as [(post & E & ->)|Hab].
  - destruct fuel; [discriminate|]. cbn [gwalk] in W.
    destruct (route s' h') as [q2|q2 vc2 h2|] eqn:R2; try discriminate.
    { rewrite E in W. discriminate W. }
    destruct (next s' q2) as [s2|] eqn:N2; try discriminate.
    destruct (gwalk next route fuel s2 h2) as [[[tr2 e2] p2]|] eqn:W2; try discriminate.
    rewrite E in W. injection W; intros; subst b. eauto.
  - eauto.
Qed.

Lemma paired_unique : forall conns n, cables_paired conns n ->
  (forall s c c', s < n -> In c (conns s) -> In c' (conns s) -> c_outport c = c_outport c' -> c = c') ->
  ports_unique conns n.
Proof.
  intros conns n P U. split; intros; [eapply U; eauto|].
  destruct (P s1 c1 H H1) as (t & r1 & E1 & E2 & E3 & E4 & E5 & E6 & E7).
  destruct (P s2 c2 H0 H2) as (t' & r2 & F1 & F2 & F3 & F4 & F5 & F6 & F7).
  assert (t = t') by (apply Nat2Z.inj; congruence). subst t'.
  assert (r1 = r2) by (apply (U t); auto; congruence). subst r2.
  assert (s1 = s2) by (apply Nat2Z.inj; congruence). split; auto.
  apply (U s1); auto; congruence.
Qed.
