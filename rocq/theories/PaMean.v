(** The parser computes the meaning of the file. *)
From Coq Require Import Ascii String List Arith Bool Lia.
From Verif Require Import PaModel PaSpec PaText PaTrip PaInv.
Import ListNotations.
Local Open Scope char_scope.

(** [find] and [fvar] at once. *)
Fixpoint fg (sel : ns -> list (str * str)) (t : ns) (p : list str) (k : str) : option str :=
  match p with
  | [] => look k (sel t)
  | n :: p' => match look n (subs t) with Some c => fg sel c p' k | None => None end
  end.

Lemma fg_find : forall p t k, fg params t p k = find t p k.
Proof. induction p; simpl; intros; auto. destruct (look a (subs t)); auto. Qed.

Lemma fg_fvar : forall p t k, fg vars t p k = fvar t p k.
Proof. induction p; simpl; intros; auto. destruct (look a (subs t)); auto. Qed.

Lemma look_upd : forall A k k' (a : A) l,
  look k' (upd k a l) = if seq k' k then Some a else look k' l.
Proof.
  induction l as [|(x, y) l IH]; simpl.
  - auto.
  - destruct (seq k x) eqn:E; simpl.
    + apply seq_true in E. subst. destruct (seq k' x); auto.
    + rewrite IH. destruct (seq k' x) eqn:E2; auto.
      apply seq_true in E2. subst. destruct (seq x k) eqn:E3; auto.
      apply seq_true in E3. subst. rewrite seq_refl in E. discriminate.
Qed.

Lemma look_drop : forall A k k' (l : list (str * A)),
  look k' (drop k l) = if seq k' k then None else look k' l.
Proof.
  induction l as [|(x, y) l IH]; simpl.
  - destruct (seq k' k); auto.
  - destruct (seq k x) eqn:E; simpl.
    + rewrite IH. apply seq_true in E. subst. destruct (seq k' x); auto.
    + rewrite IH. destruct (seq k' x) eqn:E2; auto.
      apply seq_true in E2. subst. destruct (seq x k) eqn:E3; auto.
      apply seq_true in E3. subst. rewrite seq_refl in E. discriminate.
Qed.

Fixpoint plug (c : list (str * ns)) (f : ns) : ns :=
  match c with [] => f | (n, p) :: c' => plug c' (set_sub n f p) end.

Definition path (c : list (str * ns)) : list str := rev (map fst c).

Definition selector (sel : ns -> list (str * str)) : Prop :=
  (forall n c t, sel (set_sub n c t) = sel t) /\ sel empty = [].

Lemma sel_params : selector params. Proof. split; reflexivity. Qed.
Lemma sel_vars : selector vars. Proof. split; reflexivity. Qed.

Lemma fg_set_sub : forall sel n c t q k, selector sel ->
  fg sel (set_sub n c t) q k =
  match q with
  | [] => look k (sel t)
  | x :: q' => if seq x n then fg sel c q' k else fg sel t q k
  end.
Proof.
  intros sel n c t [|x q] k (S1 & S2); simpl.
  - rewrite S1. auto.
  - rewrite look_upd. destruct (seq x n); auto.
Qed.

Lemma fg_empty : forall sel q k, selector sel -> fg sel empty q k = None.
Proof. intros sel [|x q] k (S1 & S2); simpl; auto. rewrite S2. auto. Qed.

Lemma fg_plug : forall sel, selector sel -> forall c f q k,
  fg sel (plug c f) (path c ++ q) k = fg sel f q k.
Proof.
  intros sel HS. induction c as [|(n, p) c IH]; intros f q k; auto.
  cbn [plug]. replace (path ((n, p) :: c) ++ q) with (path c ++ n :: q)
    by (unfold path; simpl; rewrite <- app_assoc; auto).
  rewrite IH, fg_set_sub by auto. rewrite seq_refl. auto.
Qed.

Lemma fg_local : forall sel, selector sel -> forall c f f' pth k,
  (forall q, pth = path c ++ q -> fg sel f q k = fg sel f' q k) ->
  fg sel (plug c f) pth k = fg sel (plug c f') pth k.
Proof.
  intros sel HS. induction c as [|(n, p) c IH]; intros f f' pth k H.
  - simpl. apply H. auto.
  - cbn [plug]. apply IH. intros q E. rewrite !fg_set_sub by auto. destruct q as [|x q]; auto.
    destruct (seq x n) eqn:X; auto. apply seq_true in X. subst x. apply H.
    unfold path in *. simpl. rewrite <- app_assoc. auto.
Qed.

Lemma prefix_dec : forall (a pth : list str), {q | pth = a ++ q} + {forall q, pth <> a ++ q}.
Proof.
  induction a as [|x a IH]; intros pth.
  - left. exists pth. auto.
  - destruct pth as [|y pth]; [right; intros; discriminate|].
    destruct (list_eq_dec ascii_dec y x) as [->|N].
    + destruct (IH pth) as [(q & ->)|N].
      * left. exists q. auto.
      * right. intros q E. injection E as E. apply (N q); auto.
    + right. intros q E. injection E as E1 E2. auto.
Qed.

Definition whole (z : zip) : ns := plug (ctx z) (foc z).

(** The state of the parser and the meaning of what it has read. *)
Definition rel (z : zip) (p : place) (m : meaning) : Prop :=
  map fst (ctx z) = p /\
  (forall q k, fg params (whole z) (rev q) k = val m q k) /\
  (forall q k, fg vars (whole z) (rev q) k = var m q k).

Lemma opn_whole : forall sel, selector sel -> forall n z pth k,
  fg sel (whole (opn n z)) pth k = fg sel (whole z) pth k.
Proof.
  intros sel HS n z pth k. unfold whole, opn. cbn [foc ctx plug]. apply fg_local; auto.
  intros q E. rewrite fg_set_sub by auto. destruct q as [|x q]; auto.
  destruct (seq x n) eqn:X; auto. apply seq_true in X. subst x. simpl. unfold sub.
  destruct (look n (subs (foc z))); auto. apply fg_empty; auto.
Qed.

Lemma rel_opn : forall n z p m, rel z p m -> rel (opn n z) (n :: p) m.
Proof.
  intros n z p m (A & B & C). split; [simpl; congruence|].
  split; intros; rewrite opn_whole; auto; [apply sel_params|apply sel_vars].
Qed.

Lemma rel_opns : forall names z p m, rel z p m -> rel (opns names z) (rev names ++ p) m.
Proof.
  induction names as [|n names IH]; intros z p m H; auto.
  simpl. rewrite <- app_assoc. simpl. apply IH, rel_opn; auto.
Qed.

Lemma rel_cls : forall z p m, rel z p m -> rel (cls z) (tl p) m.
Proof.
  intros [f c] p m (A & B & C). unfold rel, whole, cls in *. simpl in *.
  destruct c as [|(n, t) c]; simpl in *; subst p; auto.
Qed.

Lemma rel_clsn : forall j z p m, rel z p m -> rel (clsn j z) (skipn j p) m.
Proof.
  induction j as [|j IH]; intros z p m H; simpl; auto.
  apply rel_cls in H. apply IH in H. destruct p; auto. simpl in H. rewrite skipn_nil in H. auto.
Qed.

Lemma get_var_rel : forall x z p m, rel z p m -> get_var x z = scoped (var m) p x.
Proof.
  intros x [f c] p m (A & _ & C). unfold whole in C. simpl in *. subst p.
  unfold get_var. cbn [foc ctx]. revert f C. induction c as [|(n, t) c IH]; intros f C.
  - simpl. rewrite <- C. simpl. auto.
  - change (map fst ((n, t) :: c)) with (n :: map fst c). cbn [scoped].
    rewrite <- C.
    replace (rev (n :: map fst c)) with (path ((n, t) :: c) ++ []) by (rewrite app_nil_r; auto).
    rewrite fg_plug by apply sel_vars. simpl fg.
    destruct (look x (vars f)); auto. cbn [map snd].
    rewrite <- (IH (set_sub n f t)); auto.
Qed.

Lemma resolve_rel : forall fuel v z p m, rel z p m -> resolve fuel v z = value fuel v p m.
Proof.
  induction fuel as [|f IH]; intros v z p m H; destruct v as [|c v]; auto;
    destruct c as [[] [] [] [] [] [] [] []]; simpl; auto; rewrite (get_var_rel v z p m H);
    destruct (scoped (var m) p v); auto.
Qed.

Lemma same_place_true : forall p q, same_place p q = true <-> p = q.
Proof.
  intros; unfold same_place; destruct (list_eq_dec (list_eq_dec ascii_dec) p q); split; auto; discriminate.
Qed.

Lemma rel_params : forall z p m ps key v,
  rel z p m ->
  (forall k, look k ps = if seq k key then v else look k (params (foc z))) ->
  rel (Z (set_params ps (foc z)) (ctx z)) p (M (write (val m) p key v) (var m)).
Proof.
  intros [f c] p m ps key v (A & B & C) H. unfold rel, whole in *. simpl in *.
  split; auto. split.
  - intros q k. unfold write.
    destruct (prefix_dec (path c) (rev q)) as [(r & E)|N].
    + assert (EQ : q = rev r ++ p).
      { rewrite <- (rev_involutive q), E, rev_app_distr. unfold path. rewrite rev_involutive, A. auto. }
      destruct r as [|x r].
      * assert (SP : same_place q p = true) by (apply same_place_true; auto).
        rewrite SP. simpl. specialize (B q k). rewrite E, fg_plug in B by apply sel_params.
        rewrite E, fg_plug by apply sel_params. simpl in *. rewrite H.
        destruct (seq k key); auto.
      * destruct (same_place q p) eqn:SP.
        { apply same_place_true in SP. exfalso. rewrite SP in EQ.
          assert (L : length p = length (rev (x :: r)) + length p) by (rewrite EQ at 1; apply app_length).
          rewrite rev_length in L. simpl in L. lia. }
        simpl. rewrite <- B, E, !fg_plug by apply sel_params. reflexivity.
    + destruct (same_place q p) eqn:SP.
      { apply same_place_true in SP. exfalso. apply (N []). rewrite app_nil_r. unfold path. congruence. }
      simpl. rewrite <- B. apply fg_local; [apply sel_params|]. intros r E. exfalso. eapply N; eauto.
  - intros q k. rewrite <- C. apply fg_local; [apply sel_vars|]. intros r E.
    destruct r; auto.
Qed.

Lemma add_param_rel : forall fuel k v z p m,
  rel z p m ->
  match add_param fuel k v false true z, value fuel v p m with
  | Ok z', Ok v' => rel z' p (M (write (val m) p k (Some v')) (var m))
  | Abort, Abort | Undef, Undef | More, More => True
  | _, _ => False
  end.
Proof.
  intros fuel k v z p m H. unfold add_param. rewrite (resolve_rel _ _ _ _ _ H).
  destruct (value fuel v p m) as [w| | |]; auto.
  assert (G : rel (Z (set_params (upd k w (params (foc z))) (foc z)) (ctx z)) p
                  (M (write (val m) p k (Some w)) (var m))).
  { apply rel_params; auto. intros; apply look_upd. }
  destruct (look k (params (foc z))); auto.
Qed.

Lemma in_scope_rel : forall names f z p m (r : res meaning),
  rel z p m ->
  (forall z, rel z (rev names ++ p) m ->
     match f z, r with
     | Ok z', Ok m' => rel z' (rev names ++ p) m'
     | Abort, Abort | Undef, Undef | More, More => True
     | _, _ => False
     end) ->
  match in_scope names f z, r with
  | Ok z', Ok m' => rel z' p m'
  | Abort, Abort | Undef, Undef | More, More => True
  | _, _ => False
  end.
Proof.
  intros names f z p m r H F. unfold in_scope. specialize (F _ (rel_opns names z p m H)).
  destruct (f (opns names z)); destruct r; auto.
  apply (rel_clsn (length names)) in F. rewrite <- (rev_length names) in F at 2.
  rewrite skipn_app, skipn_all, Nat.sub_diag in F. exact F.
Qed.

Lemma put_var_sub : forall x v u p c p' c' n f,
  put_var u x v p c = (p', c') -> put_var u x v (set_sub n f p) c = (set_sub n f p', c').
Proof.
  intros x v [|u] p c p' c' n f H; simpl in *.
  - injection H as <- <-. auto.
  - destruct c as [|(n', t) c]; [injection H as <- <-; auto|].
    destruct (put_var u x v t c) as (t', c''). injection H as <- <-. auto.
Qed.

Lemma put_var_rel : forall x v u f c f' c' p m,
  put_var u x v f c = (f', c') -> rel (Z f c) p m ->
  rel (Z f' c') p (M (val m) (write (var m) (skipn u p) x (Some v))).
Proof.
  intros x v.
  assert (B0 : forall f c p m, rel (Z f c) p m ->
    rel (Z (set_vars (upd x v (vars f)) f) c) p (M (val m) (write (var m) p x (Some v)))).
  { intros f c p m (A & B & C). unfold rel, whole in *. simpl in *. split; auto. split.
    - intros q k. rewrite <- B. apply fg_local; [apply sel_params|]. intros r E. destruct r; auto.
    - intros q k. unfold write.
      destruct (prefix_dec (path c) (rev q)) as [(r & E)|N].
      + assert (EQ : q = rev r ++ p).
        { rewrite <- (rev_involutive q), E, rev_app_distr. unfold path. rewrite rev_involutive, A. auto. }
        destruct r as [|y r].
        * assert (SP : same_place q p = true) by (apply same_place_true; auto).
          rewrite SP. simpl. specialize (C q k). rewrite E, fg_plug in C by apply sel_vars.
          rewrite E, fg_plug by apply sel_vars. simpl in *. rewrite look_upd.
          destruct (seq k x); auto.
        * destruct (same_place q p) eqn:SP.
          { apply same_place_true in SP. exfalso. rewrite SP in EQ.
            assert (L : length p = length (rev (y :: r)) + length p) by (rewrite EQ at 1; apply app_length).
            rewrite rev_length in L. simpl in L. lia. }
          simpl. rewrite <- C, E, !fg_plug by apply sel_vars. reflexivity.
      + destruct (same_place q p) eqn:SP.
        { apply same_place_true in SP. exfalso. apply (N []). rewrite app_nil_r. unfold path. congruence. }
        simpl. rewrite <- C. apply fg_local; [apply sel_vars|]. intros r E. exfalso. eapply N; eauto. }
  induction u as [|u IH]; intros f c f' c' p m H R.
  - simpl in H. injection H as <- <-. simpl. auto.
  - destruct c as [|(n, t) c].
    + simpl in H. injection H as <- <-. destruct R as (A & BC). simpl in A. subst p. simpl.
      apply B0. split; auto.
    + simpl in H. destruct (put_var u x v t c) as (t', c'') eqn:E. injection H as <- <-.
      destruct R as (A & BC). simpl in A. subst p.
      assert (R2 : rel (Z (set_sub n f t) c) (map fst c) m) by (split; auto).
      apply (put_var_sub x v u t c t' c'' n f) in E.
      specialize (IH _ _ _ _ _ _ E R2). destruct IH as (A2 & BC2).
      split; [simpl in *; congruence|]. exact BC2.
Qed.

Definition agree (P : zip -> meaning -> Prop) (a : res zip) (b : res meaning) : Prop :=
  match a, b with
  | Ok z, Ok m => P z m
  | Abort, Abort | Undef, Undef | More, More => True
  | _, _ => False
  end.

Lemma line_step_rel : forall inc sinc fuel line d z p m,
  (forall name z p m, rel z p m -> agree (fun z' m' => rel z' p m') (inc name z) (sinc name p m)) ->
  rel z p m ->
  match line_step inc fuel line d z, mean_line sinc fuel line d p m with
  | Ok (d', z'), Ok (d'', p', m') => d' = d'' /\ rel z' p' m' /\ skipn d' p' = skipn d p
  | Abort, Abort | Undef, Undef | More, More => True
  | _, _ => False
  end.
Proof.
  intros inc sinc fuel line d z p m HI R. unfold line_step, mean_line.
  destruct (trim line) as [|c r]; [auto|].
  destruct (Ascii.eqb c "#"); [auto|].
  destruct (Ascii.eqb c "}").
  { destruct d; auto. split; auto. split; [apply rel_cls; auto|]. destruct p; auto.
    simpl. apply skipn_nil. }
  destruct (Ascii.eqb (last (c :: r) "000") "{").
  { split; auto. split; [apply rel_opn; auto|]. auto. }
  destruct (contains set_var (c :: r)).
  { destruct (split_line (skipn 8 (c :: r))) as (x, v).
    destruct (put_var d x v (foc z) (ctx z)) as (f, cc) eqn:PV.
    split; auto. split; auto. eapply put_var_rel; [exact PV|]. destruct z; exact R. }
  destruct (contains ["="] (c :: r)).
  { destruct (split_line (c :: r)) as (k, v). unfold parse_keyval.
    destruct (scope_and_key k) as (names, key).
    pose proof (in_scope_rel names (add_param fuel key v false true) z p m
      (match value fuel v (rev names ++ p) m with
       | Ok v' => Ok (M (write (val m) (rev names ++ p) key (Some v')) (var m))
       | Abort => Abort | Undef => Undef | More => More end) R) as H.
    assert (HH : forall z0, rel z0 (rev names ++ p) m ->
      match add_param fuel key v false true z0,
        (match value fuel v (rev names ++ p) m with
       | Ok v' => Ok (M (write (val m) (rev names ++ p) key (Some v')) (var m))
       | Abort => Abort | Undef => Undef | More => More end) with
      | Ok z', Ok m' => rel z' (rev names ++ p) m'
      | Abort, Abort | Undef, Undef | More, More => True
      | _, _ => False
      end).
    { intros z0 R0. pose proof (add_param_rel fuel key v z0 _ m R0) as A.
      destruct (add_param fuel key v false true z0); destruct (value fuel v (rev names ++ p) m); auto. }
    specialize (H HH).
    destruct (in_scope names (add_param fuel key v false true) z);
      destruct (value fuel v (rev names ++ p) m); auto. }
  destruct (contains include_w (c :: r)).
  { specialize (HI (trim (skipn 7 (c :: r))) z p m R). unfold agree in HI.
    destruct (inc (trim (skipn 7 (c :: r))) z); destruct (sinc (trim (skipn 7 (c :: r))) p m); auto. }
  destruct (contains unset_w (c :: r)); auto.
  destruct (scope_and_key (trim (skipn 5 (c :: r)))) as (names, key).
  pose proof (in_scope_rel names (remove_param key) z p m
      (Ok (M (write (val m) (rev names ++ p) key None) (var m))) R) as H.
  assert (HH : forall z0, rel z0 (rev names ++ p) m ->
      match remove_param key z0, Ok (M (write (val m) (rev names ++ p) key None) (var m)) with
      | Ok z', Ok m' => rel z' (rev names ++ p) m'
      | Abort, Abort | Undef, Undef | More, More => True
      | _, _ => False
      end).
  { intros z0 R0. unfold remove_param. apply rel_params; auto. intros; apply look_drop. }
  specialize (H HH).
  destruct (in_scope names (remove_param key) z); auto.
Qed.

Lemma lines_rel : forall inc sinc fuel,
  (forall name z p m, rel z p m -> agree (fun z' m' => rel z' p m') (inc name z) (sinc name p m)) ->
  forall ls d z p m, rel z p m ->
  agree (fun z' m' => rel z' (skipn d p) m') (lines inc fuel ls d z) (mean_lines sinc fuel ls d p m).
Proof.
  intros inc sinc fuel HI. induction ls as [|l ls IH]; intros d z p m R.
  - simpl. apply rel_clsn; auto.
  - cbn [lines mean_lines].
    pose proof (line_step_rel inc sinc fuel l d z p m HI R) as H.
    destruct (line_step inc fuel l d z) as [(d1, z1)| | |];
      destruct (mean_line sinc fuel l d p m) as [((d2, p2), m2)| | |]; simpl in *; auto; try contradiction.
    destruct H as (-> & R2 & E). rewrite <- E. auto.
Qed.

Theorem parse_rel : forall files fuel ls z p m, rel z p m ->
  agree (fun z' m' => rel z' p m') (parse files fuel ls z) (means files fuel ls p m).
Proof.
  intros files. induction fuel as [|f IH]; intros ls z p m R; simpl;
    refine (lines_rel _ _ _ _ ls 0 z p m R).
  - intros; exact I.
  - intros name z0 p0 m0 R0. destruct (files (trim name)); [auto|exact I].
Qed.

Lemma rel_empty : rel (Z empty []) [] nothing.
Proof.
  split; auto. split; intros; simpl; unfold whole; simpl; apply fg_empty;
    [apply sel_params|apply sel_vars].
Qed.
