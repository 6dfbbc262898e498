(** What the parser leaves behind. *)
From Coq Require Import Ascii String List Arith Bool Lia.
From Verif Require Import PaModel PaSpec PaText PaTrip.
Import ListNotations.
Local Open Scope char_scope.

Definition okv (v : str) : Prop := trim v = v /\ last v "000" <> "{".

Lemma in_upd : forall A k (a : A) l k' b, In (k', b) (upd k a l) -> (k' = k /\ b = a) \/ In (k', b) l.
Proof.
  induction l as [|(x, y) l IH]; simpl; intros k' b H.
  - destruct H as [H|[]]. injection H as <- <-. auto.
  - destruct (seq k x) eqn:E.
    + apply seq_true in E. subst. destruct H as [H|H]; auto. injection H as <- <-. auto.
    + destruct H as [H|H]; auto. apply IH in H. tauto.
Qed.

Lemma upd_keys : forall A k (a : A) l, NoDup (map fst l) -> NoDup (map fst (upd k a l)).
Proof.
  intros A k a l H.
  destruct (in_dec (list_eq_dec ascii_dec) k (map fst l)) as [I|I].
  - assert (E : map fst (upd k a l) = map fst l).
    { clear H. induction l as [|(x, y) l IH]; simpl in *; [destruct I|].
      destruct (seq k x) eqn:E; auto. simpl. rewrite IH; auto.
      apply seq_false in E. destruct I; [congruence|auto]. }
    rewrite E; auto.
  - rewrite upd_new by auto. rewrite map_app. simpl.
    apply NoDup_rev in H. rewrite <- (rev_involutive (map fst l ++ [k])).
    apply NoDup_rev. rewrite rev_app_distr. simpl. constructor; auto.
    rewrite <- in_rev. auto.
Qed.

Lemma in_drop : forall A k (l : list (str * A)) x, In x (drop k l) -> In x l.
Proof.
  induction l as [|(k', b) l IH]; simpl; auto. intros x H. destruct (seq k k'); auto.
  destruct H; auto.
Qed.

Lemma drop_keys : forall A k (l : list (str * A)), NoDup (map fst l) -> NoDup (map fst (drop k l)).
Proof.
  induction l as [|(k', b) l IH]; simpl; intros H; auto.
  inversion H; subst. destruct (seq k k'); auto. simpl. constructor; auto.
  intros I. apply H2. apply in_map_iff in I. destruct I as (x & E & I).
  apply in_map_iff. exists x. split; auto. eapply in_drop; eauto.
Qed.

Lemma look_in : forall A k (l : list (str * A)) a, look k l = Some a -> In (k, a) l.
Proof.
  induction l as [|(k', b) l IH]; simpl; intros a H; [discriminate|].
  destruct (seq k k') eqn:E; auto. apply seq_true in E. injection H as <-. subst; auto.
Qed.

Lemma plain_empty : plain empty.
Proof. apply plain_ns; try (simpl; apply NoDup_nil); intros ? ? []. Qed.

Lemma plain_sub : forall n t, plain t -> plain (sub n t).
Proof.
  intros n t H. unfold sub. destruct (look n (subs t)) as [c|] eqn:E; [|apply plain_empty].
  destruct H. simpl in E. eapply H3. eapply look_in; eauto.
Qed.

Lemma plain_set_sub : forall n c t, plain c -> plain t -> plain (set_sub n c t).
Proof.
  intros n c t HC HT. destruct HT as [ps vs ss A B C D E]. unfold set_sub. simpl.
  constructor; auto.
  - apply upd_keys; auto.
  - intros n' c' I. apply in_upd in I. destruct I as [[_ ->]|I]; eauto.
Qed.

Lemma plain_set_params : forall ps t,
  plain t -> NoDup (map fst ps) ->
  (forall k v, In (k, v) ps -> In (k, v) (params t) \/ (~ In "=" k /\ ~ In "." k /\ plain_value v)) ->
  plain (set_params ps t).
Proof.
  intros ps t HT N H. destruct HT as [ps0 vs ss A B C D E]. unfold set_params. simpl in *.
  constructor; auto. intros k v I. destruct (H k v I); auto.
Qed.

Definition zplain (z : zip) : Prop := plain (foc z) /\ forall n t, In (n, t) (ctx z) -> plain t.

Lemma zplain_opn : forall n z, zplain z -> zplain (opn n z).
Proof.
  intros n z (F & C). split; simpl.
  - apply plain_sub; auto.
  - intros n' t [E|I]; [injection E as <- <-; auto|eauto].
Qed.

Lemma zplain_opns : forall names z, zplain z -> zplain (opns names z).
Proof. induction names; simpl; auto. intros; apply IHnames, zplain_opn; auto. Qed.

Lemma zplain_cls : forall z, zplain z -> zplain (cls z).
Proof.
  intros [f c] (F & C). unfold cls. simpl in *. destruct c as [|(n, p) c]; [split; auto|].
  split; simpl.
  - apply plain_set_sub; auto. apply (C n p); left; auto.
  - intros; eapply C; right; eauto.
Qed.

Lemma zplain_clsn : forall j z, zplain z -> zplain (clsn j z).
Proof. induction j; simpl; auto. intros; apply IHj, zplain_cls; auto. Qed.

Lemma get_var_ok : forall x z v, zplain z -> get_var x z = Some v -> okv v.
Proof.
  intros x [f c] v (F & C). unfold get_var. simpl in *.
  assert (V : forall t v, plain t -> look x (vars t) = Some v -> okv v).
  { intros t w P L. destruct P. simpl in L. apply look_in in L. apply (H1 _ _ L). }
  destruct (look x (vars f)) eqn:E.
  - intros H. injection H as <-. eapply V; eauto.
  - clear E F. induction c as [|(n, p) c IH]; simpl; [discriminate|].
    destruct (look x (vars p)) eqn:E.
    + intros H. injection H as <-. eapply (V p); eauto. apply (C n p); left; auto.
    + apply IH. intros; eapply C; right; eauto.
Qed.

Lemma resolve_ok : forall fuel v z w,
  zplain z -> okv v -> resolve fuel v z = Ok w -> plain_value w.
Proof.
  induction fuel as [|f IH]; intros v z w P V H.
  - destruct (ascii_dec (hd "000" v) "$") as [D|D].
    + destruct v as [|c v]; simpl in D; [discriminate|]. subst c. simpl in H.
      destruct (get_var v z); discriminate.
    + rewrite resolve_plain in H by auto. injection H as <-. destruct V. split; auto.
  - destruct (ascii_dec (hd "000" v) "$") as [D|D].
    + destruct v as [|c v]; simpl in D; [discriminate|]. subst c. simpl in H.
      destruct (get_var v z) eqn:G; [|discriminate]. exact (IH s z w P (get_var_ok v z s P G) H).
    + rewrite resolve_plain in H by auto. injection H as <-. destruct V. split; auto.
Qed.

Lemma add_param_plain : forall fuel k v fl ov z z',
  zplain z -> okv v -> ~ In "=" k -> ~ In "." k ->
  add_param fuel k v fl ov z = Ok z' -> zplain z'.
Proof.
  intros fuel k v fl ov z z' P V N1 N2 H. unfold add_param in H.
  destruct (resolve fuel v z) as [w| | |] eqn:R; try discriminate.
  pose proof (resolve_ok _ _ _ _ P V R) as W.
  assert (G : zplain (Z (set_params (upd k w (params (foc z))) (foc z)) (ctx z))).
  { destruct P as (P1 & P2). split; simpl; auto. apply plain_set_params; auto.
    - apply upd_keys. destruct P1; auto.
    - intros k' v' I. apply in_upd in I. destruct I as [[-> ->]|I]; auto. }
  destruct (look k (params (foc z))).
  - destruct fl; [discriminate|]. destruct ov; injection H as <-; auto.
  - injection H as <-; auto.
Qed.

Lemma scope_of_key : forall c f k, length k <= f -> ~ In c k ->
  ~ In c (snd (scope_of f k)) /\ ~ In "." (snd (scope_of f k)).
Proof.
  intros c. induction f as [|f IH]; intros k L N; simpl.
  - destruct k; [simpl; auto|simpl in L; lia].
  - destruct (cut "." k) as [(n, r)|] eqn:C.
    + apply cut_some in C. destruct C as (C1 & ->).
      specialize (IH r). destruct (scope_of f r). simpl in *. apply IH.
      * rewrite app_length in L. simpl in L. lia.
      * intros I. apply N. apply in_or_app; right; right; auto.
    + simpl. split; auto. clear -C. intros I. induction k as [|x k IH]; simpl in *; auto.
      destruct (Ascii.eqb_spec x "."); [discriminate|].
      destruct (cut "." k) as [(a, b)|]; [discriminate|]. destruct I; auto.
Qed.

Lemma in_scope_plain : forall names f z z',
  (forall z z', zplain z -> f z = Ok z' -> zplain z') ->
  zplain z -> in_scope names f z = Ok z' -> zplain z'.
Proof.
  intros names f z z' H P E. unfold in_scope in E.
  destruct (f (opns names z)) eqn:F; try discriminate. injection E as <-.
  apply zplain_clsn. eapply H; [|exact F]. apply zplain_opns; auto.
Qed.

Lemma keyval_okz : forall fuel k v fl ov z z',
  zplain z -> okv v -> ~ In "=" k -> parse_keyval fuel k v fl ov z = Ok z' -> zplain z'.
Proof.
  intros fuel k v fl ov z z' P V N H. unfold parse_keyval in H.
  destruct (scope_of_key "=" (length k) k (le_n _) N) as (N1 & N2).
  unfold scope_and_key in H. destruct (scope_of (length k) k) as (names, key). simpl in *.
  eapply in_scope_plain; [|exact P|exact H]. intros; eapply add_param_plain; eauto.
Qed.

Lemma split_ok : forall a b, tight (a ++ b) -> last (a ++ b) "000" <> "{" -> okv (snd (split_line b)).
Proof.
  intros a b T L. unfold split_line. destruct (cut "=" b) as [(x, y)|] eqn:C; simpl.
  - apply cut_some in C. destruct C as (_ & ->).
    split; [apply trim_trim|].
    replace (a ++ x ++ "=" :: y) with ((a ++ x ++ ["="]) ++ y) in * by (rewrite <- !app_assoc; auto).
    eapply last_trim_ok; eauto.
  - split; [apply trim_trim|]. eapply last_trim_ok; eauto.
Qed.

Lemma put_var_plain : forall x v, okv v -> forall u f c f' c',
  zplain (Z f c) -> put_var u x v f c = (f', c') -> zplain (Z f' c').
Proof.
  intros x v V. 
  assert (B : forall f c, zplain (Z f c) -> zplain (Z (set_vars (upd x v (vars f)) f) c)).
  { intros f c (F & C). split; simpl in *; auto. destruct F as [ps vs ss A B C0 D E].
    unfold set_vars; simpl. constructor; auto.
    intros x' v' I. apply in_upd in I. destruct I as [[-> ->]|I]; eauto. }
  induction u as [|u IH]; intros f c f' c' P H; simpl in H.
  - injection H as <- <-. auto.
  - destruct c as [|(n, p) c]; [injection H as <- <-; auto|].
    destruct (put_var u x v p c) as (p', c'') eqn:E. injection H as <- <-.
    destruct P as (F & C). simpl in *.
    assert (Q : zplain (Z p' c'')).
    { eapply IH; [|exact E]. split; simpl; eauto. }
    destruct Q as (Q1 & Q2). split; simpl in *; auto.
    intros n' t [I|I]; [injection I as <- <-; auto|eauto].
Qed.

Lemma line_step_plain : forall inc fuel line d z d' z',
  (forall name z z', zplain z -> inc name z = Ok z' -> zplain z') ->
  zplain z -> line_step inc fuel line d z = Ok (d', z') -> zplain z'.
Proof.
  intros inc fuel line d z d' z' HI P H. unfold line_step in H.
  pose proof (trim_tight line) as T. destruct (trim line) as [|c r] eqn:TL.
  - injection H as <- <-. auto.
  - destruct (Ascii.eqb c "#"); [injection H as <- <-; auto|].
    destruct (Ascii.eqb c "}").
    { destruct d; [discriminate|]. injection H as <- <-. apply zplain_cls; auto. }
    destruct (Ascii.eqb (last (c :: r) "000") "{") eqn:LB.
    { injection H as <- <-. apply zplain_opn; auto. }
    apply Ascii.eqb_neq in LB.
    destruct (contains set_var (c :: r)) eqn:CV.
    { pose proof (firstn_skipn 8 (c :: r)) as FS.
      assert (OK : okv (snd (split_line (skipn 8 (c :: r))))).
      { apply (split_ok (firstn 8 (c :: r))); rewrite FS; auto. }
      destruct (split_line (skipn 8 (c :: r))) as (x, v). simpl in OK.
      destruct (put_var d x v (foc z) (ctx z)) as (f, cc) eqn:PV. injection H as <- <-.
      eapply put_var_plain; [exact OK| |exact PV]. destruct z; exact P. }
    destruct (contains ["="] (c :: r)) eqn:CE.
    { pose proof (split_ok [] (c :: r) T LB) as OK.
      assert (NE : ~ In "=" (fst (split_line (c :: r)))).
      { unfold split_line. destruct (cut "=" (c :: r)) as [(x, y)|] eqn:C.
        - apply cut_some in C. destruct C as (N & _). simpl. intros I. apply N.
          destruct (trim_split x) as (p & q & _ & _ & E). rewrite E.
          apply in_or_app; right; apply in_or_app; auto.
        - exfalso. apply contains_char in CE. clear -C CE. revert C CE.
          generalize (c :: r). intros s. induction s as [|y s IH]; simpl; intros C I; auto.
          destruct (Ascii.eqb_spec y "="); [discriminate|].
          destruct (cut "=" s) as [(a, b)|]; [discriminate|]. destruct I; auto. }
      destruct (split_line (c :: r)) as (k, v). simpl in *.
      destruct (parse_keyval fuel k v false true z) eqn:PK; try discriminate.
      injection H as <- <-. eapply keyval_okz; eauto. }
    destruct (contains include_w (c :: r)).
    { destruct (inc (trim (skipn 7 (c :: r))) z) eqn:EI; try discriminate.
      injection H as <- <-. eauto. }
    destruct (contains unset_w (c :: r)); [|discriminate].
    destruct (scope_and_key (trim (skipn 5 (c :: r)))) as (names, key).
    destruct (in_scope names (remove_param key) z) eqn:ES; try discriminate.
    injection H as <- <-. eapply in_scope_plain; [|exact P|exact ES].
    intros y y' Y E. unfold remove_param in E. injection E as <-. destruct Y as (Y1 & Y2).
    split; simpl; auto. apply plain_set_params; auto.
    + apply drop_keys. destruct Y1; auto.
    + intros k' v' I. left. eapply in_drop; eauto.
Qed.

Lemma lines_plain : forall inc fuel,
  (forall name z z', zplain z -> inc name z = Ok z' -> zplain z') ->
  forall ls d z z', zplain z -> lines inc fuel ls d z = Ok z' -> zplain z'.
Proof.
  intros inc fuel HI. induction ls as [|l ls IH]; intros d z z' P H; simpl in H.
  - injection H as <-. apply zplain_clsn; auto.
  - destruct (line_step inc fuel l d z) as [(d1, z1)| | |] eqn:E; try discriminate.
    eapply IH; [|exact H]. eapply line_step_plain; eauto.
Qed.

Theorem parse_plain : forall files fuel ls z z',
  zplain z -> parse files fuel ls z = Ok z' -> zplain z'.
Proof.
  intros files. induction fuel as [|f IH]; intros ls z z' P H; simpl in H.
  - eapply lines_plain; [|exact P|exact H]. simpl; intros; discriminate.
  - eapply lines_plain; [|exact P|exact H]. simpl. intros name y y' Y E.
    destruct (files (trim name)); [eauto|discriminate].
Qed.

Theorem read_plain : forall files fuel ls t t',
  plain t -> read files fuel ls t = Ok t' -> plain t'.
Proof.
  intros files fuel ls t t' P H. unfold read in H.
  destruct (parse files fuel ls (Z t [])) eqn:E; try discriminate. injection H as <-.
  apply parse_plain in E; [apply E|]. split; auto. intros ? ? [].
Qed.
