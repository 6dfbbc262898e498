(** Invariant of the executor of collective schedules. *)
From Coq Require Import List Arith Lia Bool.
From Verif Require Import ListFacts DagModel.
Import ListNotations.

(** The pairs precursor/action of a list of dependencies. *)
Fixpoint pairs (ds : list dep) : list (nat * nat) :=
  match ds with
  | [] => []
  | (Some p, j) :: r => (p, j) :: pairs r
  | (None, _) :: r => pairs r
  end.
Definition nodes (ds : list dep) : list nat := map snd ds.

Definition cntj (j : nat) (l : list (nat * nat)) : nat := length (filter (fun x => snd x =? j) l).

Lemma cntj_app : forall j a b, cntj j (a ++ b) = cntj j a + cntj j b.
Proof. intros. unfold cntj. rewrite filter_app, app_length. reflexivity. Qed.
Lemma cntj_0 : forall j l, cntj j l = 0 <-> forall p, ~ In (p, j) l.
Proof.
  intros j l. unfold cntj. induction l as [|[p q] l IH]; cbn [filter snd].
  - split; [intros _ p []|reflexivity].
  - destruct (Nat.eqb_spec q j) as [->|Hne]; cbn [length].
    + split; [discriminate|]. intros H. exfalso. apply (H p). left. reflexivity.
    + rewrite IH. split; intros H x; [|intros Hx; apply (H x); right; exact Hx].
      intros [E|Hx]; [congruence|exact (H x Hx)].
Qed.

(** What the build phase leaves. *)
Record built_ok (ds : list dep) (b : built) : Prop := {
  bo_pend : forall x, In x (b_pend b) <-> In x (pairs ds);
  bo_join : forall j, b_join b j = cntj j (b_pend b);
  bo_nodup : NoDup (b_init b);
  bo_init : forall j, In j (b_init b) <-> (In j (nodes ds) /\ b_join b j = 0);
  bo_len : length (b_pend b) + length (b_init b) <= length ds
}.

Lemma pairs_app : forall a b, pairs (a ++ b) = pairs a ++ pairs b.
Proof.
  induction a as [|[[p|] j] a IH]; intros b; cbn [pairs app]; [reflexivity| |]; rewrite IH; reflexivity.
Qed.

Lemma remove_length_le' : forall x (l : list nat), length (remove Nat.eq_dec x l) <= length l.
Proof.
  intros x l. induction l as [|y l IH]; cbn [remove length]; [lia|].
  destruct (Nat.eq_dec x y); cbn [length]; lia.
Qed.

Lemma nodup_remove' : forall x (l : list nat), NoDup l -> NoDup (remove Nat.eq_dec x l).
Proof.
  intros x l H. induction H as [|y l Hy H IH]; cbn [remove]; [constructor|].
  destruct (Nat.eq_dec x y); [exact IH|]. constructor; [|exact IH].
  intros Hin. apply in_remove in Hin. tauto.
Qed.

Lemma build_ok : forall ds, built_ok ds (build ds).
Proof.
  assert (H : forall ds pre b, built_ok pre b -> built_ok (pre ++ ds) (fold_left add_dependency ds b)).
  { induction ds as [|[[p|] j] ds IH]; intros pre b Hb; cbn [fold_left].
    - rewrite app_nil_r. exact Hb.
    - change ((Some p, j) :: ds) with ([(Some p, j)] ++ ds : list dep). rewrite app_assoc.
      apply IH. destruct Hb as [H1 H2 H3 H4 H5]. constructor; cbn [add_dependency b_init b_pend b_join].
      + intros x. rewrite pairs_app. cbn [pairs In]. rewrite in_app_iff. cbn [In]. rewrite H1. tauto.
      + intros i. unfold upd, cntj. cbn [filter snd]. rewrite (Nat.eqb_sym j i).
        destruct (Nat.eqb_spec i j) as [->|]; cbn [length]; fold (cntj j (b_pend b)); [rewrite <- H2; reflexivity|].
        apply H2.
      + apply nodup_remove'. exact H3.
      + intros i. unfold nodes. rewrite map_app, in_app_iff. cbn [map snd In]. unfold upd.
        destruct (Nat.eqb_spec i j) as [->|Hne].
        * split; [intros Hi; exfalso; exact (remove_In _ _ _ Hi)|intros (_ & E); discriminate].
        * split.
          -- intros Hi. apply in_remove in Hi. destruct Hi as (Hi & _). apply H4 in Hi. tauto.
          -- intros ([Hi|[E|[]]] & E0); [|congruence]. apply in_in_remove; [exact Hne|]. apply H4. auto.
      + cbn [length]. rewrite app_length. cbn [length].
        pose proof (remove_length_le' j (b_init b)). unfold dep in *. lia.
    - change ((None, j) :: ds) with ([(None, j)] ++ ds : list dep). rewrite app_assoc.
      apply IH. destruct Hb as [H1 H2 H3 H4 H5]. cbn [add_dependency].
      assert (Hp : forall x, In x (b_pend b) <-> In x (pairs (pre ++ [(None, j)]))).
      { intros x. rewrite pairs_app. cbn [pairs]. rewrite app_nil_r. apply H1. }
      assert (Hnd : forall i, In i (nodes (pre ++ [(None, j)])) <-> In i (nodes pre) \/ i = j).
      { intros i. unfold nodes. rewrite map_app, in_app_iff. cbn [map snd In].
        split; [intros [H|[H|[]]]; auto|intros [H|H]; [left; exact H|right; left; congruence]]. }
      destruct (Nat.eqb_spec (b_join b j) 0) as [E|E].
      + destruct (in_dec Nat.eq_dec j (b_init b)) as [Hin|Hin];
          constructor; cbn [b_init b_pend b_join]; try assumption.
        * intros i. rewrite H4, Hnd. split; [tauto|]. intros ([Hi | ->] & E0); [tauto|].
          split; [|exact E]. apply H4. exact Hin.
        * rewrite app_length. cbn [length]. unfold dep in *. lia.
        * constructor; assumption.
        * intros i. cbn [In]. rewrite H4, Hnd. split.
          -- intros [<-|Hi]; [auto|tauto].
          -- intros ([Hi | ->] & E0); [right; auto|left; reflexivity].
        * rewrite app_length. cbn [length]. unfold dep in *. lia.
      + constructor; try assumption.
        * intros i. rewrite H4, Hnd. split; [tauto|]. intros ([Hi | ->] & E0); [tauto|]. contradiction.
        * rewrite app_length. cbn [length]. unfold dep in *. lia. }
  intros ds. apply (H ds [] {| b_init := []; b_pend := []; b_join := fun _ => 0 |}).
  constructor; cbn; try tauto; try reflexivity; try constructor.
Qed.

Definition fstarts (k : list frame) : list nat :=
  flat_map (fun f => match f with FStart i => [i] | _ => [] end) k.
Definition fclears (k : list frame) : list nat :=
  flat_map (fun f => match f with FClear i => [i] | _ => [] end) k.
Definition starts (l : list devent) : list nat :=
  flat_map (fun e => match e with EStart i => [i] | _ => [] end) l.
Definition clears (l : list devent) : list nat :=
  flat_map (fun e => match e with EClear i => [i] | _ => [] end) l.
Definition dones (l : list devent) : nat :=
  length (filter (fun e => match e with EDone => true | _ => false end) l).
Definition fweight (f : frame) : nat := match f with FStart _ => 6 | FClear _ => 2 | _ => 1 end.
Definition sweight (k : list frame) : nat := fold_right (fun f n => fweight f + n) 0 k.

Definition quiet (f : frame) : Prop := match f with FStart _ | FClear _ => False | _ => True end.
Lemma quiet_fstarts : forall k, Forall quiet k -> fstarts k = [].
Proof. induction 1 as [|f k H _ IH]; [reflexivity|]. destruct f; cbn in *; tauto. Qed.
Lemma quiet_fclears : forall k, Forall quiet k -> fclears k = [].
Proof. induction 1 as [|f k H _ IH]; [reflexivity|]. destruct f; cbn in *; tauto. Qed.

Section Inv.
Variable comm : nat -> bool.
Variable ds : list dep.

(** Once-only properties of the log. *)
Definition log_ok (l : list devent) : Prop :=
  (forall l1 l2 j, l = l1 ++ EStart j :: l2 -> forall p, In (p, j) (pairs ds) -> In p (clears l2)) /\
  (forall l1 l2, l = l1 ++ EDone :: l2 -> forall j, In j (nodes ds) -> In j (clears l2)).

Record dinv (n : nat) (c : dcfg) : Prop := {
  iv_top : match d_stk c with [] => True | _ :: k => Forall quiet k end;
  iv_once : NoDup (d_init c ++ fstarts (d_stk c) ++ starts (d_log c));
  iv_node : forall j, In j (d_init c ++ fstarts (d_stk c) ++ starts (d_log c)) -> In j (nodes ds);
  iv_wait : forall p j, In (p, j) (d_pend c) ->
    In (p, j) (pairs ds) /\ ~ In j (d_init c ++ fstarts (d_stk c) ++ starts (d_log c));
  iv_cover : forall j, In j (nodes ds) ->
    In j (d_init c ++ fstarts (d_stk c) ++ starts (d_log c)) \/ exists p, In (p, j) (d_pend c);
  iv_join : forall j, d_join c j = cntj j (d_pend c);
  iv_gone : forall p j, In (p, j) (pairs ds) -> In (p, j) (d_pend c) \/ In p (clears (d_log c));
  iv_loop : forall p j, In (p, j) (d_pend c) -> In p (clears (d_log c)) -> In (FLoop p) (d_stk c);
  iv_lc : forall p, In (FLoop p) (d_stk c) -> In p (clears (d_log c));
  iv_clr : NoDup (fclears (d_stk c) ++ clears (d_log c));
  iv_clr_st : forall i, In i (fclears (d_stk c) ++ clears (d_log c)) -> In i (starts (d_log c));
  iv_st : forall i, In i (starts (d_log c)) -> In i (fclears (d_stk c) ++ clears (d_log c)) \/ In i (d_act c);
  iv_act : forall i, In i (d_act c) -> In i (starts (d_log c)) /\ ~ In i (clears (d_log c));
  iv_fin : d_init c <> [] -> In FInit (d_stk c);
  iv_done0 : In EDone (d_log c) -> forall j, In j (nodes ds) -> In j (clears (d_log c));
  iv_done1 : dones (d_log c) <= 1;
  iv_done2 : nodes ds <> [] -> (forall j, In j (nodes ds) -> In j (clears (d_log c))) -> In EDone (d_log c);
  iv_log : log_ok (d_log c);
  iv_meas : n + 7 * length (d_pend c) + 7 * length (d_init c) + sweight (d_stk c) + 3 * length (starts (d_log c))
            <= 7 * length ds + 1 + 3 * length (clears (d_log c)) + 3 * length (fclears (d_stk c))
}.

Lemma dinv_start : dinv 0 (dstart ds).
Proof.
  pose proof (build_ok ds) as [H1 H2 H3 H4 H5].
  constructor; cbn [dstart d_init d_pend d_join d_act d_stk d_log fstarts fclears starts clears flat_map app];
    rewrite ?app_nil_r.
  - constructor.
  - exact H3.
  - intros j Hj. apply H4. exact Hj.
  - intros p j Hp. split; [apply H1; exact Hp|]. intros Hj. apply H4 in Hj. destruct Hj as (_ & E).
    rewrite H2 in E. apply (proj1 (cntj_0 _ _) E p). exact Hp.
  - intros j Hj. destruct (Nat.eq_dec (b_join (build ds) j) 0) as [E|E]; [left; apply H4; auto|right].
    rewrite H2 in E. unfold cntj in E.
    destruct (filter (fun x => snd x =? j) (b_pend (build ds))) as [|[p q] l] eqn:F; [contradiction|].
    assert (Hin : In (p, q) (filter (fun x => snd x =? j) (b_pend (build ds)))) by (rewrite F; left; reflexivity).
    apply filter_In in Hin. destruct Hin as (Hin & Eq). apply Nat.eqb_eq in Eq. cbn in Eq. subst q.
    exists p. exact Hin.
  - exact H2.
  - intros p j Hp. left. apply H1. exact Hp.
  - intros p j _ [].
  - intros p [E|[]]. discriminate.
  - constructor.
  - intros i [].
  - intros i [].
  - intros i [].
  - intros _. left. reflexivity.
  - intros [].
  - cbn. lia.
  - intros Hne Hall. destruct (nodes ds) as [|j l]; [contradiction|]. destruct (Hall j (or_introl eq_refl)).
  - split; intros l1 l2 *; destruct l1; discriminate.
  - cbn [length sweight fold_right fweight]. lia.
Qed.

Lemma log_ok_cons : forall e l, log_ok l ->
  (forall j, e = EStart j -> forall p, In (p, j) (pairs ds) -> In p (clears l)) ->
  (e = EDone -> forall j, In j (nodes ds) -> In j (clears l)) -> log_ok (e :: l).
Proof.
  intros e l (H1 & H2) He1 He2. split.
  - intros l1 l2 j E. destruct l1 as [|x l1]; cbn [app] in E; injection E as -> E.
    + subst l2. apply He1. reflexivity.
    + apply (H1 l1 l2 j E).
  - intros l1 l2 E. destruct l1 as [|x l1]; cbn [app] in E; injection E as -> E.
    + subst l2. apply He2. reflexivity.
    + apply (H2 l1 l2 E).
Qed.

Lemma is_empty_nil : forall A (l : list A), is_empty l = true <-> l = [].
Proof. intros A [|x l]; cbn; split; congruence. Qed.

Lemma nodup_move : forall (a b c : list nat) x, NoDup ((a ++ x :: b) ++ c) -> NoDup ((a ++ b) ++ x :: c).
Proof.
  intros a b c x H. rewrite <- app_assoc in H. cbn [app] in H.
  apply (Permutation.Permutation_NoDup (l := a ++ x :: b ++ c)); [|exact H].
  rewrite <- app_assoc. apply Permutation.Permutation_app_head.
  apply Permutation.Permutation_middle.
Qed.

Lemma in_move : forall (a b c : list nat) x y, In y ((a ++ b) ++ x :: c) <-> In y ((a ++ x :: b) ++ c).
Proof. intros. rewrite !in_app_iff. cbn [In]. rewrite ?in_app_iff. tauto. Qed.

Lemma dinv_step : forall n c c', dinv n c -> dstep comm c c' -> dinv (S n) c'.
Proof.
  intros n c c' I Hs.
  destruct Hs as [c k i l1 l2 Hk Hl | c k Hk Hl | c k i Hk Hc | c k i Hk Hc | c k i Hk Hc
                 | c k i a Hk Ha | c k i j l1 l2 Hk Hl | c k i Hk Hno | c i Hk Hin];
    destruct I as [V1 V2 V3 V4 V5 V6 V7 V8 V19 V9 V10 V11 V12 V13 V14 V15 V16 V17 V18]; rewrite Hk in *.
  - (* s_init *)
    rewrite Hl in *. cbn [fstarts fclears flat_map app sweight fold_right fweight] in *.
    fold (fstarts k) in *. fold (fclears k) in *. fold (sweight k) in *.
    constructor; cbn [d_init d_pend d_join d_act d_stk d_log fstarts fclears flat_map app sweight fold_right fweight];
      fold (fstarts k); fold (fclears k); fold (sweight k); try assumption.
    + constructor; [exact Logic.I|exact V1].
    + apply nodup_move. exact V2.
    + intros j Hj. apply V3. apply in_move. exact Hj.
    + intros p j Hp. destruct (V4 p j Hp) as (A & B). split; [exact A|]. intros Hj. apply B. apply in_move. exact Hj.
    + intros j Hj. destruct (V5 j Hj) as [A|A]; [left; apply in_move; exact A|right; exact A].
    + intros p j Hp Hcl. right. apply (V8 p j Hp Hcl).
    + intros p [E|H]; [discriminate|]. apply V19. exact H.
    + intros _. right. left. reflexivity.
    + rewrite app_length in *. cbn [length] in V18. lia.
  - (* s_init_end *)
    rewrite Hl in *. cbn [fstarts fclears flat_map app sweight fold_right fweight] in *.
    fold (fstarts k) in *. fold (fclears k) in *. fold (sweight k) in *.
    constructor; cbn [d_init d_pend d_join d_act d_stk d_log fstarts fclears flat_map app sweight fold_right fweight];
      try assumption.
    + destruct k; [exact Logic.I|]. inversion V1; assumption.
    + intros p j Hp Hcl. destruct (V8 p j Hp Hcl) as [E|E]; [discriminate|exact E].
    + intros p H. apply V19. right. exact H.
    + intros H; contradiction.
    + fold (fclears k). fold (sweight k). cbn [length] in *. lia.
  - (* s_start_wait *)
    cbn [fstarts fclears flat_map app sweight fold_right fweight] in *.
    fold (fstarts k) in *. fold (fclears k) in *. fold (sweight k) in *.
    assert (Qs : fstarts k = []) by (apply quiet_fstarts; exact V1).
    assert (Qc : fclears k = []) by (apply quiet_fclears; exact V1).
    rewrite ?Qs, ?Qc in *. cbn [app] in *.
    assert (Hnc : ~ In i (clears (d_log c))).
    { intros Hi. apply (V10 i) in Hi. apply nodup_app_iff in V2. destruct V2 as (_ & V2 & _).
      inversion V2. contradiction. }
    constructor; cbn [d_init d_pend d_join d_act d_stk d_log starts clears flat_map app];
      fold (starts (d_log c)); fold (clears (d_log c)); rewrite ?Qs, ?Qc; cbn [app length]; try assumption.
    + destruct k; [exact Logic.I|]. inversion V1; assumption.
    + intros p j Hp Hcl. destruct (V8 p j Hp Hcl) as [E|E]; [discriminate|exact E].
    + intros p H. apply V19. right. exact H.
    + intros x Hx. right. apply V10. exact Hx.
    + intros x [<-|Hx]; [right; left; reflexivity|]. destruct (V11 x Hx); [left|right; right]; assumption.
    + intros x [<-|Hx]; [split; [left; reflexivity|exact Hnc]|]. destruct (V12 x Hx). split; [right|]; assumption.
    + intros H. destruct (V13 H) as [E|E]; [discriminate|exact E].
    + intros [E|H]; [discriminate|]. apply V14. exact H.
    + intros H1 H2. right. apply V16; assumption.
    + apply log_ok_cons; [exact V17| |discriminate]. intros x E p Hp. injection E as ->.
      destruct (V7 p x Hp) as [A|A]; [exfalso|exact A]. apply (V4 p x A). apply in_or_app. right. left. reflexivity.
    + cbn [length] in V18. lia.
  - (* s_start_ready *)
    cbn [fstarts fclears flat_map app sweight fold_right fweight] in *.
    fold (fstarts k) in *. fold (fclears k) in *. fold (sweight k) in *.
    assert (Qs : fstarts k = []) by (apply quiet_fstarts; exact V1).
    assert (Qc : fclears k = []) by (apply quiet_fclears; exact V1).
    rewrite ?Qs, ?Qc in *. cbn [app] in *.
    assert (Hnc : ~ In i (clears (d_log c))).
    { intros Hi. apply (V10 i) in Hi. apply nodup_app_iff in V2. destruct V2 as (_ & V2 & _).
      inversion V2. contradiction. }
    constructor; cbn [d_init d_pend d_join d_act d_stk d_log starts clears fstarts fclears flat_map app sweight
      fold_right fweight];
      fold (starts (d_log c)); fold (clears (d_log c)); fold (fstarts k); fold (fclears k); fold (sweight k);
      rewrite ?Qs, ?Qc; cbn [app length]; try assumption.
    + intros p j Hp Hcl. right. destruct (V8 p j Hp Hcl) as [E|E]; [discriminate|exact E].
    + intros p [E|H]; [discriminate|]. apply V19. right. exact H.
    + constructor; assumption.
    + intros x [<-|Hx]; [left; reflexivity|]. right. apply V10. exact Hx.
    + intros x [<-|Hx]; [right; left; reflexivity|]. destruct (V11 x Hx); [left; right|right; right]; assumption.
    + intros x [<-|Hx]; [split; [left; reflexivity|exact Hnc]|]. destruct (V12 x Hx). split; [right|]; assumption.
    + intros H. right. destruct (V13 H) as [E|E]; [discriminate|exact E].
    + intros [E|H]; [discriminate|]. apply V14. exact H.
    + intros H1 H2. right. apply V16; assumption.
    + apply log_ok_cons; [exact V17| |discriminate]. intros x E p Hp. injection E as ->.
      destruct (V7 p x Hp) as [A|A]; [exfalso|exact A]. apply (V4 p x A). apply in_or_app. right. left. reflexivity.
    + cbn [length] in V18. lia.
  - (* s_start_local *)
    cbn [fstarts fclears flat_map app sweight fold_right fweight] in *.
    fold (fstarts k) in *. fold (fclears k) in *. fold (sweight k) in *.
    assert (Qs : fstarts k = []) by (apply quiet_fstarts; exact V1).
    assert (Qc : fclears k = []) by (apply quiet_fclears; exact V1).
    rewrite ?Qs, ?Qc in *. cbn [app] in *.
    assert (Hnc : ~ In i (clears (d_log c))).
    { intros Hi. apply (V10 i) in Hi. apply nodup_app_iff in V2. destruct V2 as (_ & V2 & _).
      inversion V2. contradiction. }
    constructor; cbn [d_init d_pend d_join d_act d_stk d_log starts clears fstarts fclears flat_map app sweight
      fold_right fweight];
      fold (starts (d_log c)); fold (clears (d_log c)); fold (fstarts k); fold (fclears k); fold (sweight k);
      rewrite ?Qs, ?Qc; cbn [app length]; try assumption.
    + intros p j Hp Hcl. right. destruct (V8 p j Hp Hcl) as [E|E]; [discriminate|exact E].
    + intros p [E|H]; [discriminate|]. apply V19. right. exact H.
    + constructor; assumption.
    + intros x [<-|Hx]; [left; reflexivity|]. right. apply V10. exact Hx.
    + intros x [<-|Hx]; [left; left; reflexivity|]. destruct (V11 x Hx); [left; right|right]; assumption.
    + intros x Hx. destruct (V12 x Hx). split; [right|]; assumption.
    + intros H. right. destruct (V13 H) as [E|E]; [discriminate|exact E].
    + intros [E|H]; [discriminate|]. apply V14. exact H.
    + intros H1 H2. right. apply V16; assumption.
    + apply log_ok_cons; [exact V17| |discriminate]. intros x E p Hp. injection E as ->.
      destruct (V7 p x Hp) as [A|A]; [exfalso|exact A]. apply (V4 p x A). apply in_or_app. right. left. reflexivity.
    + cbn [length] in V18. lia.
  - (* s_clear *)
    cbn [fstarts fclears flat_map app sweight fold_right fweight] in *.
    fold (fstarts k) in *. fold (fclears k) in *. fold (sweight k) in *.
    assert (Qs : fstarts k = []) by (apply quiet_fstarts; exact V1).
    assert (Qc : fclears k = []) by (apply quiet_fclears; exact V1).
    rewrite ?Qs, ?Qc in *. cbn [app] in *.
    set (dn := if is_empty a && is_empty (d_pend c) && is_empty (d_init c) then [EDone] else []).
    assert (Sd : starts (dn ++ EClear i :: d_log c) = starts (d_log c)).
    { unfold dn. destruct (is_empty a && is_empty (d_pend c) && is_empty (d_init c)); reflexivity. }
    assert (Cd : clears (dn ++ EClear i :: d_log c) = i :: clears (d_log c)).
    { unfold dn. destruct (is_empty a && is_empty (d_pend c) && is_empty (d_init c)); reflexivity. }
    assert (Hni : ~ In i (clears (d_log c))) by (inversion V9; assumption).
    assert (Hst : In i (starts (d_log c))) by (apply V10; left; reflexivity).
    (* done means everything is cleared *)
    assert (Hall : is_empty a && is_empty (d_pend c) && is_empty (d_init c) = true ->
                   forall j, In j (nodes ds) -> In j (i :: clears (d_log c))).
    { intros E j Hj. apply andb_true_iff in E. destruct E as (E & E3). apply andb_true_iff in E. destruct E as (E1 & E2).
      apply is_empty_nil in E1, E2, E3.
      destruct (V5 j Hj) as [A|(p & A)]; [|rewrite E2 in A; destruct A].
      rewrite E3 in A. cbn [app] in A. destruct (V11 j A) as [B|B]; [exact B|].
      destruct (Nat.eq_dec j i) as [->|Hne]; [left; reflexivity|].
      assert (Hin : In j a) by (rewrite Ha; apply in_in_remove; assumption). rewrite E1 in Hin. destruct Hin. }
    assert (Hnd : ~ In EDone (d_log c)).
    { intros H. apply Hni. apply (V14 H). apply V3. apply in_or_app. right. exact Hst. }
    constructor; cbn [d_init d_pend d_join d_act d_stk d_log fstarts fclears flat_map app sweight fold_right fweight];
      fold (fstarts k); fold (fclears k); fold (sweight k); fold dn; rewrite ?Sd, ?Cd, ?Qs, ?Qc; cbn [app];
      try assumption.
    + intros p j Hp. destruct (V7 p j Hp); [left|right; right]; assumption.
    + intros p j Hp [<-|Hcl]; [left; reflexivity|]. right. destruct (V8 p j Hp Hcl) as [E|E]; [discriminate|exact E].
    + intros p [E|H]; [left; congruence|]. right. apply V19. right. exact H.
    + intros x Hx. destruct (V11 x Hx) as [A|A]; [left; exact A|].
      destruct (Nat.eq_dec x i) as [->|Hne]; [left; left; reflexivity|]. right. rewrite Ha. apply in_in_remove; assumption.
    + intros x Hx. rewrite Ha in Hx. apply in_remove in Hx. destruct Hx as (Hx & Hne). destruct (V12 x Hx) as (A & B).
      split; [exact A|]. intros [E|E]; [congruence|contradiction].
    + intros H. right. destruct (V13 H) as [E|E]; [discriminate|exact E].
    + intros H. apply Hall. unfold dn in H.
      destruct (is_empty a && is_empty (d_pend c) && is_empty (d_init c)); [reflexivity|].
      cbn [app In] in H. destruct H as [E|H]; [discriminate|contradiction].
    + unfold dn. destruct (is_empty a && is_empty (d_pend c) && is_empty (d_init c)); cbn [app]; [|exact V15].
      unfold dones. cbn [filter length]. fold (dones (d_log c)).
      assert (E : dones (d_log c) = 0).
      { unfold dones. destruct (filter _ (d_log c)) as [|e l] eqn:F; [reflexivity|exfalso].
        assert (He : In e (e :: l)) by (left; reflexivity). rewrite <- F in He. apply filter_In in He.
        destruct He as (He & Ht). destruct e; try discriminate. contradiction. }
      rewrite E. lia.
    + intros Hne Hc2. unfold dn.
      assert (E : is_empty a && is_empty (d_pend c) && is_empty (d_init c) = true).
      { assert (Hnoi : forall j, In j (nodes ds) -> ~ In j (d_init c)).
        { intros j Hj Hi. specialize (Hc2 j Hj).
          assert (Hs2 : In j (starts (d_log c))) by (destruct Hc2 as [<-|H]; [exact Hst|apply V10; right; exact H]).
          apply nodup_app_iff in V2. destruct V2 as (_ & _ & V2). exact (V2 j Hi Hs2). }
        rewrite !andb_true_iff, !is_empty_nil. split; [split|].
        - destruct a as [|x a']; [reflexivity|exfalso].
          assert (Hx : In x (remove Nat.eq_dec i (d_act c))) by (rewrite <- Ha; left; reflexivity).
          apply in_remove in Hx. destruct Hx as (Hx & Hxi). destruct (V12 x Hx) as (A & B).
          destruct (Hc2 x) as [E|E]; [apply V3; apply in_or_app; right; exact A|congruence|contradiction].
        - destruct (d_pend c) as [|[p j] l]; [reflexivity|exfalso].
          destruct (V4 p j (or_introl eq_refl)) as (A & B). apply B. apply in_or_app. right.
          assert (Hj : In j (nodes ds)).
          { clear - A. induction ds as [|[[q|] m] r IH]; cbn in *; [tauto| |tauto].
            destruct A as [A|A]; [injection A as -> ->; left; reflexivity|right; apply IH; exact A]. }
          specialize (Hc2 j Hj). destruct Hc2 as [<-|H]; [exact Hst|apply V10; right; exact H].
        - destruct (d_init c) as [|x l] eqn:Ei; [reflexivity|exfalso].
          assert (Hx : In x (nodes ds)) by (apply V3; left; reflexivity).
          apply (Hnoi x Hx). left. reflexivity. }
      rewrite E. left. reflexivity.
    + assert (HL : log_ok (EClear i :: d_log c)) by (apply log_ok_cons; [exact V17|discriminate|discriminate]).
      unfold dn. destruct (is_empty a && is_empty (d_pend c) && is_empty (d_init c)) eqn:E; [|exact HL].
      cbn [app]. apply log_ok_cons; [exact HL|discriminate|]. intros _ j Hj. apply (Hall eq_refl). exact Hj.
    + cbn [length] in *. lia.
  - (* s_loop *)
    rewrite Hl in *. cbn [fstarts fclears flat_map app sweight fold_right fweight] in *.
    fold (fstarts k) in *. fold (fclears k) in *. fold (sweight k) in *.
    assert (Qs : fstarts k = []) by (apply quiet_fstarts; exact V1).
    assert (Qc : fclears k = []) by (apply quiet_fclears; exact V1).
    rewrite ?Qs, ?Qc in *. cbn [app] in *.
    destruct (V4 i j) as (Hpj & Hnj); [apply in_or_app; right; left; reflexivity|].
    assert (Hnode : In j (nodes ds)).
    { clear - Hpj. induction ds as [|[[q|] m] r IH]; cbn in *; [tauto| |tauto].
      destruct Hpj as [A|A]; [injection A as -> ->; left; reflexivity|right; apply IH; exact A]. }
    assert (Hj1 : d_join c j = S (cntj j (l1 ++ l2))).
    { rewrite V6, !cntj_app. change ((i, j) :: l2) with ([(i, j)] ++ l2). rewrite cntj_app.
      unfold cntj at 2. cbn [filter snd]. rewrite Nat.eqb_refl. cbn [length]. lia. }
    assert (Hcnt : forall x, x <> j -> cntj x (l1 ++ (i, j) :: l2) = cntj x (l1 ++ l2)).
    { intros x Hx. rewrite !cntj_app. change ((i, j) :: l2) with ([(i, j)] ++ l2). rewrite cntj_app.
      unfold cntj at 2. cbn [filter snd]. destruct (Nat.eqb_spec j x); [congruence|]. reflexivity. }
    assert (Hsub : forall x, In x (l1 ++ l2) -> In x (l1 ++ (i, j) :: l2)).
    { intros x Hx. apply in_app_iff in Hx. apply in_or_app. cbn [In]. tauto. }
    set (st := if d_join c j - 1 =? 0 then [FStart j] else []).
    assert (Fs : fstarts (st ++ FLoop i :: k) = if d_join c j - 1 =? 0 then [j] else []).
    { unfold st. destruct (d_join c j - 1 =? 0); cbn [app fstarts flat_map]; fold (fstarts k); rewrite Qs; reflexivity. }
    assert (Fc : fclears (st ++ FLoop i :: k) = []).
    { unfold st. destruct (d_join c j - 1 =? 0); cbn [app fclears flat_map]; fold (fclears k); rewrite Qc; reflexivity. }
    constructor; cbn [d_init d_pend d_join d_act d_stk d_log]; fold st; rewrite ?Fs, ?Fc; cbn [app]; try assumption.
    + unfold st. destruct (d_join c j - 1 =? 0); cbn [app]; [constructor; [exact Logic.I|exact V1]|exact V1].
    + destruct (d_join c j - 1 =? 0); cbn [app]; [|exact V2].
      apply (Permutation.Permutation_NoDup (l := j :: d_init c ++ starts (d_log c)));
        [apply Permutation.Permutation_middle|]. constructor; assumption.
    + intros x Hx. destruct (d_join c j - 1 =? 0); cbn [app] in Hx; [|apply V3; exact Hx].
      apply in_app_iff in Hx. cbn [In] in Hx. destruct Hx as [Hx|[<-|Hx]]; [| exact Hnode |];
        apply V3; apply in_or_app; tauto.
    + intros p x Hp. destruct (V4 p x (Hsub _ Hp)) as (A & B). split; [exact A|].
      destruct (Nat.eqb_spec (d_join c j - 1) 0) as [E|E]; cbn [app]; [|exact B].
      intros Hx. apply in_app_iff in Hx. cbn [In] in Hx. destruct Hx as [Hx|[<-|Hx]].
      * apply B. apply in_or_app. tauto.
      * assert (E0 : cntj j (l1 ++ l2) = 0) by lia. apply (proj1 (cntj_0 _ _) E0 p). exact Hp.
      * apply B. apply in_or_app. tauto.
    + intros x Hx. destruct (V5 x Hx) as [A|(p & A)].
      * left. destruct (d_join c j - 1 =? 0); cbn [app]; [|exact A].
        apply in_app_iff in A. apply in_or_app. cbn [In]. tauto.
      * destruct (Nat.eq_dec x j) as [->|Hne].
        -- destruct (Nat.eqb_spec (d_join c j - 1) 0) as [E|E].
           ++ left. apply in_or_app. right. left. reflexivity.
           ++ right. destruct (filter (fun y => snd y =? j) (l1 ++ l2)) as [|[q y] l] eqn:F.
              ** exfalso. unfold cntj in Hj1. rewrite F in Hj1. cbn in Hj1. lia.
              ** assert (Hin : In (q, y) ((q, y) :: l)) by (left; reflexivity). rewrite <- F in Hin.
                 apply filter_In in Hin. destruct Hin as (Hin & Eq). apply Nat.eqb_eq in Eq. cbn in Eq. subst y.
                 exists q. exact Hin.
        -- right. exists p. apply in_app_iff in A. cbn [In] in A. apply in_or_app.
           destruct A as [A|[A|A]]; [tauto|congruence|tauto].
    + intros x. unfold upd. destruct (Nat.eqb_spec x j) as [->|Hne]; [lia|].
      rewrite V6. apply Hcnt. exact Hne.
    + intros p x Hp. destruct (V7 p x Hp) as [A|A]; [|right; exact A].
      apply in_app_iff in A. cbn [In] in A. destruct A as [A|[A|A]].
      * left. apply in_or_app. tauto.
      * injection A as <- <-. right. apply V19. left. reflexivity.
      * left. apply in_or_app. tauto.
    + intros p x Hp Hcl. apply in_or_app. right. apply (V8 p x (Hsub _ Hp) Hcl).
    + intros p H. apply V19. apply in_app_iff in H. destruct H as [H|H]; [|exact H].
      unfold st in H. destruct (d_join c j - 1 =? 0); [destruct H as [H|[]]; discriminate|destruct H].
    + intros H. apply in_or_app. right. apply (V13 H).
    + unfold st. rewrite app_length in *. cbn [length] in V18.
      destruct (d_join c j - 1 =? 0); cbn [app sweight fold_right fweight]; fold (sweight k); lia.
  - (* s_loop_end *)
    cbn [fstarts fclears flat_map app sweight fold_right fweight] in *.
    fold (fstarts k) in *. fold (fclears k) in *. fold (sweight k) in *.
    constructor; cbn [d_init d_pend d_join d_act d_stk d_log]; try assumption.
    + destruct k; [exact Logic.I|]. inversion V1; assumption.
    + intros p j Hp Hcl. destruct (V8 p j Hp Hcl) as [E|E]; [|exact E].
      injection E as ->. exfalso. exact (Hno j Hp).
    + intros p H. apply V19. right. exact H.
    + intros H. destruct (V13 H) as [E|E]; [discriminate|exact E].
    + lia.
  - (* s_complete *)
    cbn [fstarts fclears flat_map app sweight fold_right fweight] in *.
    destruct (V12 i Hin) as (A & B).
    constructor; cbn [d_init d_pend d_join d_act d_stk d_log fstarts fclears flat_map app sweight fold_right fweight];
      try assumption.
    + constructor.
    + intros p j Hp Hcl. destruct (V8 p j Hp Hcl).
    + intros p [E|[]]. discriminate.
    + constructor; assumption.
    + intros x [<-|Hx]; [exact A|apply V10; exact Hx].
    + intros x Hx. destruct (V11 x Hx); [left; right|right]; assumption.
    + intros H. destruct (V13 H).
    + cbn [length] in *. lia.
Qed.
End Inv.

Lemma dexec_inv : forall comm ds n c, dexec comm ds n c -> dinv ds n c.
Proof.
  intros comm ds n c H. induction H as [|n c c' H IH Hs]; [apply dinv_start|].
  exact (dinv_step comm ds n c c' IH Hs).
Qed.
