(** Merging two sets of parameters. *)
From Coq Require Import Ascii String List Arith Bool Lia.
From Verif Require Import PaModel PaSpec PaText PaTrip PaInv PaMean.
Import ListNotations.
Local Open Scope char_scope.

Definition merge (over : bool) (a b : option str) : option str :=
  if over then first_of a b else first_of b a.

Lemma keyval_merge : forall fuel k v over f c,
  ~ In "." k -> hd "000" v <> "$" ->
  exists ps, parse_keyval fuel k v false over (Z f c) = Ok (Z (set_params ps f) c) /\
    forall k', look k' ps = if seq k' k then merge over (Some v) (look k (params f)) else look k' (params f).
Proof.
  intros fuel k v over f c NK NV. unfold parse_keyval. rewrite scope_plain by auto.
  unfold in_scope, opns, add_param. rewrite resolve_plain by auto. cbn [foc ctx length clsn].
  destruct (look k (params f)) eqn:L.
  - destruct over.
    + eexists. split; [reflexivity|]. intros k'. rewrite look_upd. auto.
    + exists (params f). split; [destruct f; reflexivity|]. intros k'.
      destruct (seq k' k) eqn:E; auto. apply seq_true in E. subst. auto.
  - eexists. split; [reflexivity|]. intros k'. rewrite look_upd. destruct over; auto.
Qed.

Lemma add_all_merge : forall fuel over ps f c,
  NoDup (map fst ps) ->
  (forall k v, In (k, v) ps -> ~ In "." k /\ hd "000" v <> "$") ->
  exists ps', add_all fuel ps false over (Z f c) = Ok (Z (set_params ps' f) c) /\
    forall k, look k ps' = merge over (look k ps) (look k (params f)).
Proof.
  intros fuel over. induction ps as [|(k, v) ps IH]; intros f c ND H.
  - exists (params f). split; [destruct f; reflexivity|]. intros k. simpl.
    destruct over; simpl; auto. destruct (look k (params f)); auto.
  - destruct (H k v (or_introl eq_refl)) as (N1 & N2).
    destruct (keyval_merge fuel k v over f c N1 N2) as (p1 & E1 & L1).
    cbn [add_all]. rewrite E1.
    inversion ND; subst.
    destruct (IH (set_params p1 f) c) as (p2 & E2 & L2); [auto|intros; apply H; right; auto|].
    exists p2. split; [rewrite E2; destruct f; reflexivity|].
    intros k'. rewrite L2. simpl params. rewrite L1. simpl look.
    destruct (seq k' k) eqn:E; auto. apply seq_true in E. subst k'.
    rewrite (look_none _ k ps) by auto. destruct over; simpl; auto.
    destruct (look k (params f)); auto.
Qed.

Theorem combine_merge : forall a, stored a -> forall fuel over f c,
  exists f', combine fuel a false over (Z f c) = Ok (Z f' c) /\
    forall p k, find f' p k = merge over (find a p k) (find f p k).
Proof.
  induction a as [ps vs ss IH] using ns_induct.
  intros SA fuel over f c. inversion SA as [? ? ? S1 S2 S3 S4]; subst.
  destruct (add_all_merge fuel over ps f c S1 S2) as (ps' & E & L).
  cbn [combine]. rewrite E.
  set (each := fix each (l : list (str * ns)) (z : zip) {struct l} : res zip :=
    match l with
    | [] => Ok z
    | (n, c0) :: r =>
        match combine fuel c0 false over (opn n z) with
        | Ok z' => each r (cls z')
        | Abort => Abort | Undef => Undef | More => More
        end
    end).
  assert (G : forall l g, NoDup (map fst l) -> (forall x, In x l -> In x ss) ->
    exists g', each l (Z g c) = Ok (Z g' c) /\ params g' = params g /\
      forall n p k, find g' (n :: p) k =
        merge over (match look n l with Some t => find t p k | None => None end) (find g (n :: p) k)).
  { induction l as [|(n, t) l IHl]; intros g ND SUB.
    - exists g. split; auto. split; auto. intros n p k. simpl. destruct over; simpl; auto.
      destruct (match look n (subs g) with Some c0 => find c0 p k | None => None end); auto.
    - inversion ND; subst.
      pose proof (SUB _ (or_introl eq_refl)) as IN.
      destruct (IH n t IN (S4 n t IN) fuel over (sub n g) ((n, g) :: c)) as (t' & ET & LT).
      destruct (IHl (set_sub n t' g)) as (g' & EG & PG & LG); [auto|intros; apply SUB; right; auto|].
      exists g'. split.
      { simpl. unfold opn. cbn [foc ctx]. rewrite ET. unfold cls. cbn [foc ctx]. exact EG. }
      split; [rewrite PG; reflexivity|].
      intros m p k. rewrite LG. cbn [look].
      replace (find (set_sub n t' g) (m :: p) k)
        with (if seq m n then find t' p k else find g (m :: p) k)
        by (rewrite <- (fg_find (m :: p) (set_sub n t' g) k), fg_set_sub by apply sel_params;
            destruct (seq m n); [symmetry; apply fg_find|symmetry; apply (fg_find (m :: p))]).
      destruct (seq m n) eqn:E2; auto. apply seq_true in E2. subst m.
      rewrite (look_none _ n l) by auto. rewrite LT.
      assert (SB : find (sub n g) p k = find g (n :: p) k).
      { simpl. unfold sub. destruct (look n (subs g)); auto. rewrite <- fg_find. apply fg_empty, sel_params. }
      rewrite SB. destruct over; simpl; auto.
      destruct (match look n (subs g) with Some c0 => find c0 p k | None => None end);
        simpl; auto; destruct (find t p k); auto. }
  destruct (G ss (set_params ps' f) S3 (fun x H => H)) as (g' & EG & PG & LG).
  exists g'. split; auto. intros [|n p] k.
  - simpl. rewrite PG. simpl. apply L.
  - rewrite LG. reflexivity.
Qed.

Lemma plain_stored : forall t, plain t -> stored t.
Proof.
  induction t as [ps vs ss IH] using ns_induct. intros P. inversion P as [? ? ? P1 P2 P3 P4 P5]; subst.
  constructor; auto.
  - intros k v I. destruct (P2 k v I) as (_ & A & _ & _ & B). auto.
  - intros n c I. eapply IH; eauto.
Qed.
