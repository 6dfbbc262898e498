(* C55, C88: the reduction operators do not depend on the order of combination. *)
From Coq Require Import ZArith List Bool Lia Permutation.
From Verif Require Import LocModel.
Import ListNotations.
Open Scope Z_scope.

(* ---------- specification ---------- *)

(* r is the largest value of l with the smallest index at which it occurs. *)
Definition is_maxloc (l : list pair) (r : pair) : Prop :=
  In r l /\ forall p, In p l ->
    p_value p <= p_value r /\ (p_value p = p_value r -> p_index r <= p_index p).

Definition is_minloc (l : list pair) (r : pair) : Prop :=
  In r l /\ forall p, In p l ->
    p_value r <= p_value p /\ (p_value p = p_value r -> p_index r <= p_index p).

(* The j-th elements of the buffers at the leaves. *)
Definition column {A} (d : A) (j : nat) (bs : list (list A)) : list A :=
  map (fun b => nth j b d) bs.

Fixpoint zsum (l : list Z) : Z := match l with [] => 0 | x :: r => x + zsum r end.
Fixpoint zprod (l : list Z) : Z := match l with [] => 1 | x :: r => x * zprod r end.
Definition nonzeros (l : list Z) : nat := length (filter (fun x => negb (x =? 0)) l).

(* Representable in w bits. *)
Definition fits (w x : Z) : Prop := - 2 ^ (w - 1) <= x < 2 ^ (w - 1).

(* What MPI says each operator gives on two or more contributions. *)
Definition op_result (w : Z) (o : mop) (l : list Z) (r : Z) : Prop :=
  match o with
  | SUM => fits w r /\ exists k, r = zsum l + k * 2 ^ w
  | PROD => fits w r /\ exists k, r = zprod l + k * 2 ^ w
  | MAX => In r l /\ forall x, In x l -> x <= r
  | MIN => In r l /\ forall x, In x l -> r <= x
  | LAND => r = 1 /\ (forall x, In x l -> x <> 0) \/ r = 0 /\ In 0 l
  | LOR => r = 1 /\ (exists x, In x l /\ x <> 0) \/ r = 0 /\ (forall x, In x l -> x = 0)
  | LXOR => r = if Nat.odd (nonzeros l) then 1 else 0
  | BAND => forall i, 0 <= i -> (Z.testbit r i = true <-> forall x, In x l -> Z.testbit x i = true)
  | BOR => forall i, 0 <= i -> (Z.testbit r i = true <-> exists x, In x l /\ Z.testbit x i = true)
  | BXOR => forall i, 0 <= i ->
      Z.testbit r i = Nat.odd (length (filter (fun x => Z.testbit x i) l))
  end.

(* ---------- proofs ---------- *)

Lemma maxloc_node : forall l1 l2 a b,
  is_maxloc l1 a -> is_maxloc l2 b -> is_maxloc (l1 ++ l2) (maxloc_op a b).
Proof.
  intros l1 l2 a b [A1 A2] [B1 B2]. unfold maxloc_op.
  destruct a as [av ai], b as [bv bi]; cbn [p_value p_index] in *.
  destruct (Z.gtb_spec bv av) as [G|G].
  - split; [apply in_or_app; right; exact B1|]. cbn [p_value p_index].
    intros p Hp. apply in_app_or in Hp. destruct Hp as [Hp|Hp].
    + specialize (A2 p Hp). lia.
    + specialize (B2 p Hp). lia.
  - destruct (Z.eqb_spec bv av) as [E|E].
    + subst bv. split.
      * apply in_or_app. destruct (Z.min_spec bi ai) as [[M1 M2]|[M1 M2]]; rewrite M2; auto.
      * cbn [p_value p_index]. intros p Hp. apply in_app_or in Hp. destruct Hp as [Hp|Hp].
        -- specialize (A2 p Hp). lia.
        -- specialize (B2 p Hp). lia.
    + split; [apply in_or_app; left; exact A1|]. cbn [p_value p_index].
      intros p Hp. apply in_app_or in Hp. destruct Hp as [Hp|Hp].
      * specialize (A2 p Hp). lia.
      * specialize (B2 p Hp). lia.
Qed.

Lemma minloc_node : forall l1 l2 a b,
  is_minloc l1 a -> is_minloc l2 b -> is_minloc (l1 ++ l2) (minloc_op a b).
Proof.
  intros l1 l2 a b [A1 A2] [B1 B2]. unfold minloc_op.
  destruct a as [av ai], b as [bv bi]; cbn [p_value p_index] in *.
  destruct (Z.ltb_spec bv av) as [G|G].
  - split; [apply in_or_app; right; exact B1|]. cbn [p_value p_index].
    intros p Hp. apply in_app_or in Hp. destruct Hp as [Hp|Hp].
    + specialize (A2 p Hp). lia.
    + specialize (B2 p Hp). lia.
  - destruct (Z.eqb_spec bv av) as [E|E].
    + subst bv. split.
      * apply in_or_app. destruct (Z.min_spec bi ai) as [[M1 M2]|[M1 M2]]; rewrite M2; auto.
      * cbn [p_value p_index]. intros p Hp. apply in_app_or in Hp. destruct Hp as [Hp|Hp].
        -- specialize (A2 p Hp). lia.
        -- specialize (B2 p Hp). lia.
    + split; [apply in_or_app; left; exact A1|]. cbn [p_value p_index].
      intros p Hp. apply in_app_or in Hp. destruct Hp as [Hp|Hp].
      * specialize (A2 p Hp). lia.
      * specialize (B2 p Hp). lia.
Qed.

Lemma maxloc_unique : forall l r s, is_maxloc l r -> is_maxloc l s -> r = s.
Proof.
  intros l [rv ri] [sv si] [R1 R2] [S1 S2].
  pose proof (R2 _ S1) as A. pose proof (S2 _ R1) as B.
  cbn [p_value p_index] in *. f_equal; lia.
Qed.

Lemma minloc_unique : forall l r s, is_minloc l r -> is_minloc l s -> r = s.
Proof.
  intros l [rv ri] [sv si] [R1 R2] [S1 S2].
  pose proof (R2 _ S1) as A. pose proof (S2 _ R1) as B.
  cbn [p_value p_index] in *. f_equal; lia.
Qed.

Lemma maxloc_leaf : forall x, is_maxloc [x] x.
Proof. intro x. split; [left; reflexivity|]. intros p [->|[]]. lia. Qed.
Lemma minloc_leaf : forall x, is_minloc [x] x.
Proof. intro x. split; [left; reflexivity|]. intros p [->|[]]. lia. Qed.

Lemma reduce_op_length : forall A (op : A -> A -> A) n d s,
  length (reduce_op op n d s) = length d.
Proof.
  intros A op; induction n as [|n IH]; intros [|x d] [|y s]; cbn; auto.
Qed.

Lemma reduce_op_nth : forall A (op : A -> A -> A) dflt n d s j,
  length d = n -> length s = n -> (j < n)%nat ->
  nth j (reduce_op op n d s) dflt = op (nth j d dflt) (nth j s dflt).
Proof.
  intros A op dflt; induction n as [|n IH]; intros [|x d] [|y s] j D S' J; cbn in *; try lia.
  destruct j; [reflexivity|]. apply IH; lia.
Qed.

Lemma eval_reduce_length : forall A (op : A -> A -> A) n t,
  (forall b, In b (leaves t) -> length b = n) -> length (eval (reduce_op op n) t) = n.
Proof.
  intros A op n t; induction t as [b|a IHa b IHb]; intro H; cbn [eval leaves] in *.
  - apply H. left; reflexivity.
  - rewrite reduce_op_length. apply IHa. intros; apply H, in_or_app; auto.
Qed.

(* Position j of a reduction of buffers is the reduction of the positions j. *)
Lemma eval_reduce_nth : forall A (op : A -> A -> A) dflt n (P : list A -> A -> Prop),
  (forall x, P [x] x) ->
  (forall l1 l2 a b, P l1 a -> P l2 b -> P (l1 ++ l2) (op a b)) ->
  forall t j, (forall b, In b (leaves t) -> length b = n) -> (j < n)%nat ->
  P (column dflt j (leaves t)) (nth j (eval (reduce_op op n) t) dflt).
Proof.
  intros A op dflt n P PL PN t j; induction t as [b|a IHa b IHb]; intros H J;
    cbn [eval leaves] in *.
  - apply PL.
  - unfold column in *. rewrite map_app.
    assert (Ha : forall c, In c (leaves a) -> length c = n) by (intros; apply H, in_or_app; auto).
    assert (Hb : forall c, In c (leaves b) -> length c = n) by (intros; apply H, in_or_app; auto).
    rewrite reduce_op_nth by (auto using eval_reduce_length).
    apply PN; auto.
Qed.

(* C55 *)
Theorem maxloc_any_order : forall n t j d,
  (forall b, In b (leaves t) -> length b = n) -> (j < n)%nat ->
  is_maxloc (column d j (leaves t)) (nth j (eval (reduce_op maxloc_op n) t) d).
Proof.
  intros n t j d. apply (eval_reduce_nth _ maxloc_op d n is_maxloc).
  - apply maxloc_leaf.
  - apply maxloc_node.
Qed.
Print Assumptions maxloc_any_order.

Theorem minloc_any_order : forall n t j d,
  (forall b, In b (leaves t) -> length b = n) -> (j < n)%nat ->
  is_minloc (column d j (leaves t)) (nth j (eval (reduce_op minloc_op n) t) d).
Proof.
  intros n t j d. apply (eval_reduce_nth _ minloc_op d n is_minloc).
  - apply minloc_leaf.
  - apply minloc_node.
Qed.
Print Assumptions minloc_any_order.

(* Two reductions of the same contributions, in whatever order, agree. *)
Theorem loc_order_independent : forall n t1 t2,
  Permutation (leaves t1) (leaves t2) ->
  (forall b, In b (leaves t1) -> length b = n) ->
  eval (reduce_op maxloc_op n) t1 = eval (reduce_op maxloc_op n) t2 /\
  eval (reduce_op minloc_op n) t1 = eval (reduce_op minloc_op n) t2.
Proof.
  intros n t1 t2 P H.
  assert (H2 : forall b, In b (leaves t2) -> length b = n)
    by (intros b Hb; apply H; eapply Permutation_in; [apply Permutation_sym, P|exact Hb]).
  set (d := {| p_value := 0; p_index := 0 |}).
  assert (PC : forall j x, In x (column d j (leaves t1)) <-> In x (column d j (leaves t2))).
  { intros j x. split; intro K; eapply Permutation_in; try exact K; apply Permutation_map;
      [exact P|apply Permutation_sym, P]. }
  split; apply nth_ext with (d := d) (d' := d).
  1,3: rewrite !eval_reduce_length; auto.
  - intros j J. rewrite eval_reduce_length in J by exact H.
    apply (maxloc_unique (column d j (leaves t1))); [apply maxloc_any_order; auto|].
    destruct (maxloc_any_order n t2 j d H2 J) as [I1 I2].
    split; [apply PC, I1|]. intros p Hp. apply I2, PC, Hp.
  - intros j J. rewrite eval_reduce_length in J by exact H.
    apply (minloc_unique (column d j (leaves t1))); [apply minloc_any_order; auto|].
    destruct (minloc_any_order n t2 j d H2 J) as [I1 I2].
    split; [apply PC, I1|]. intros p Hp. apply I2, PC, Hp.
Qed.
Print Assumptions loc_order_independent.

(* ---------- the other operators ---------- *)

Lemma wrap_fits : forall w x, 0 < w -> fits w (wrap w x).
Proof.
  intros w x W. unfold fits, wrap.
  assert (E : 2 ^ w = 2 * 2 ^ (w - 1))
    by (rewrite <- Z.pow_succ_r by lia; f_equal; lia).
  assert (0 < 2 ^ (w - 1)) by (apply Z.pow_pos_nonneg; lia).
  pose proof (Z.mod_pos_bound (x + 2 ^ (w - 1)) (2 ^ w) ltac:(lia)). lia.
Qed.

Lemma wrap_congr : forall w x, 0 < w -> exists k, wrap w x = x + k * 2 ^ w.
Proof.
  intros w x W. unfold wrap.
  exists (- ((x + 2 ^ (w - 1)) / 2 ^ w)).
  assert (0 < 2 ^ w) by (apply Z.pow_pos_nonneg; lia).
  rewrite Z.mod_eq by lia. ring.
Qed.

Lemma zsum_app : forall l m, zsum (l ++ m) = zsum l + zsum m.
Proof. induction l as [|x l IH]; intro m; cbn [zsum app]; [reflexivity|rewrite IH; ring]. Qed.
Lemma zprod_app : forall l m, zprod (l ++ m) = zprod l * zprod m.
Proof. induction l as [|x l IH]; intro m; cbn [zprod app]; [ring|rewrite IH; ring]. Qed.

Lemma nonzeros_app : forall l m, nonzeros (l ++ m) = (nonzeros l + nonzeros m)%nat.
Proof. intros. unfold nonzeros. rewrite filter_app, app_length. reflexivity. Qed.

(* What a partial result already says about its contributions: the same as
   op_result, except that a single logical contribution is kept as it came. *)
Definition part (w : Z) (o : mop) (l : list Z) (r : Z) : Prop :=
  match o with
  | LAND => r <> 0 <-> (forall x, In x l -> x <> 0)
  | LOR => r <> 0 <-> (exists x, In x l /\ x <> 0)
  | LXOR => negb (r =? 0) = Nat.odd (nonzeros l)
  | _ => op_result w o l r
  end.

Lemma part_leaf : forall w o x, fits w x -> part w o [x] x.
Proof.
  intros w o x F. destruct o; cbn [part op_result].
  - split; [exact F|]. exists 0. cbn. ring.
  - split; [left; reflexivity|]. intros y [->|[]]. lia.
  - split; [left; reflexivity|]. intros y [->|[]]. lia.
  - split; [intros N y [->|[]]; exact N|]. intro H; apply H; left; reflexivity.
  - split; [intro N; exists x; split; [left; reflexivity|exact N]|].
    intros [y [[->|[]] N]]. exact N.
  - split; [exact F|]. exists 0. cbn. ring.
  - unfold nonzeros. cbn [filter]. destruct (x =? 0); reflexivity.
  - intros i I. split; [intros T y [->|[]]; exact T|]. intro H; apply H; left; reflexivity.
  - intros i I. split; [intro T; exists x; split; [left; reflexivity|exact T]|].
    intros [y [[->|[]] T]]. exact T.
  - intros i I. cbn [filter]. destruct (Z.testbit x i); reflexivity.
Qed.

Lemma truth_iff : forall x, truth x = true <-> x <> 0.
Proof. intro x. unfold truth. destruct (Z.eqb_spec x 0); cbn; split; congruence || auto. Qed.

Lemma of_bool_iff : forall b, of_bool b <> 0 <-> b = true.
Proof. intros []; cbn; split; congruence || lia. Qed.

Lemma part_node : forall w o f l1 l2 a b, 0 < w -> int_fxns w o = Some f ->
  part w o l1 a -> part w o l2 b -> part w o (l1 ++ l2) (f a b).
Proof.
  intros w o f l1 l2 a b W E A B.
  destruct o; cbn [int_fxns] in E; try discriminate; injection E as <-;
    cbn [part op_result] in *.
  - destruct A as [_ [k Ka]], B as [_ [m Kb]]. unfold add_op. split; [apply wrap_fits, W|].
    destruct (wrap_congr w (a + b) W) as [q Q]. rewrite Q, Ka, Kb, zsum_app.
    exists (k + m + q). ring.
  - destruct A as [A1 A2], B as [B1 B2]. unfold max_op. destruct (Z.ltb_spec a b).
    + split; [apply in_or_app; auto|]. intros x Hx. apply in_app_or in Hx.
      destruct Hx as [Hx|Hx]; [specialize (A2 _ Hx)|specialize (B2 _ Hx)]; lia.
    + split; [apply in_or_app; auto|]. intros x Hx. apply in_app_or in Hx.
      destruct Hx as [Hx|Hx]; [specialize (A2 _ Hx)|specialize (B2 _ Hx)]; lia.
  - destruct A as [A1 A2], B as [B1 B2]. unfold min_op. destruct (Z.ltb_spec a b).
    + split; [apply in_or_app; auto|]. intros x Hx. apply in_app_or in Hx.
      destruct Hx as [Hx|Hx]; [specialize (A2 _ Hx)|specialize (B2 _ Hx)]; lia.
    + split; [apply in_or_app; auto|]. intros x Hx. apply in_app_or in Hx.
      destruct Hx as [Hx|Hx]; [specialize (A2 _ Hx)|specialize (B2 _ Hx)]; lia.
  - unfold land_op. rewrite of_bool_iff, andb_true_iff, !truth_iff, A, B.
    split.
    + intros [H1 H2] x Hx. apply in_app_or in Hx. destruct Hx; auto.
    + intro H. split; intros x Hx; apply H, in_or_app; auto.
  - unfold lor_op. rewrite of_bool_iff, orb_true_iff, !truth_iff, A, B.
    split.
    + intros [[x [Hx N]]|[x [Hx N]]]; exists x; split; auto; apply in_or_app; auto.
    + intros [x [Hx N]]. apply in_app_or in Hx. destruct Hx; [left|right]; exists x; auto.
  - destruct A as [_ [k Ka]], B as [_ [m Kb]]. unfold prod_op. split; [apply wrap_fits, W|].
    destruct (wrap_congr w (a * b) W) as [q Q]. rewrite Q, Ka, Kb, zprod_app.
    exists (zprod l1 * m + k * zprod l2 + k * m * 2 ^ w + q). ring.
  - unfold lxor_op. rewrite nonzeros_app, Nat.odd_add, <- A, <- B. unfold truth.
    destruct (xorb _ _); reflexivity.
  - unfold band_op. intros i I. rewrite Z.land_spec, andb_true_iff, (A i I), (B i I).
    split.
    + intros [H1 H2] x Hx. apply in_app_or in Hx. destruct Hx; auto.
    + intro H. split; intros x Hx; apply H, in_or_app; auto.
  - unfold bor_op. intros i I. rewrite Z.lor_spec, orb_true_iff, (A i I), (B i I).
    split.
    + intros [[x [Hx N]]|[x [Hx N]]]; exists x; split; auto; apply in_or_app; auto.
    + intros [x [Hx N]]. apply in_app_or in Hx. destruct Hx; [left|right]; exists x; auto.
Qed.

Lemma part_eval : forall w o f t, 0 < w -> int_fxns w o = Some f ->
  (forall x, In x (leaves t) -> fits w x) -> part w o (leaves t) (eval f t).
Proof.
  intros w o f t W E; induction t as [x|a IHa b IHb]; intro H; cbn [leaves eval] in *.
  - apply part_leaf, H. left; reflexivity.
  - apply part_node with (1 := W) (2 := E);
      [apply IHa|apply IHb]; intros; apply H, in_or_app; auto.
Qed.

Lemma eval_bool : forall (f : Z -> Z -> Z) g t, (forall a b, f a b = of_bool (g a b)) ->
  (2 <= length (leaves t))%nat -> eval f t = 0 \/ eval f t = 1.
Proof.
  intros f g [x|a b] E L; cbn [leaves length] in L; [lia|].
  cbn [eval]. rewrite E. destruct (g _ _); cbn; auto.
Qed.

(* C88: every operator an integer type has gives, on any two or more
   contributions combined in any order, the result MPI defines. *)
Theorem int_ops_correct_partial : forall w o f t, 0 < w -> int_fxns w o = Some f ->
  (forall x, In x (leaves t) -> fits w x) -> (2 <= length (leaves t))%nat ->
  op_result w o (leaves t) (eval f t).
Proof.
  intros w o f t W E H L. pose proof (part_eval w o f t W E H) as P.
  destruct o; cbn [part op_result] in *; try exact P.
  - injection E as <-.
    destruct (eval_bool land_op (fun a b => truth a && truth b) t ltac:(reflexivity) L) as [V|V].
    + right. split; [exact V|].
      destruct (in_dec Z.eq_dec 0 (leaves t)) as [I|I]; [exact I|].
      exfalso. apply (proj2 P); [|exact V]. intros x Hx ->. auto.
    + left. split; [exact V|]. apply P. rewrite V. lia.
  - injection E as <-.
    destruct (eval_bool lor_op (fun a b => truth a || truth b) t ltac:(reflexivity) L) as [V|V].
    + right. split; [exact V|]. intros x Hx.
      destruct (Z.eq_dec x 0) as [Z0|N]; [exact Z0|].
      exfalso. apply (proj2 P); [|exact V]. exists x; auto.
    + left. split; [exact V|]. apply P. rewrite V. lia.
  - injection E as <-.
    destruct (eval_bool lxor_op (fun a b => xorb (truth a) (truth b)) t ltac:(reflexivity) L)
      as [V|V]; rewrite V in *; cbn in P; rewrite <- P; reflexivity.
Qed.
Print Assumptions int_ops_correct_partial.

Lemma zsum_perm : forall l m, Permutation l m -> zsum l = zsum m.
Proof. induction 1; cbn [zsum]; lia. Qed.
Lemma zprod_perm : forall l m, Permutation l m -> zprod l = zprod m.
Proof. induction 1 as [|x l m P IH|x y l|l m k P IH Q JH]; cbn [zprod];
  [reflexivity|rewrite IH; reflexivity|ring|congruence]. Qed.
Lemma filter_perm : forall A (f : A -> bool) l m, Permutation l m ->
  length (filter f l) = length (filter f m).
Proof.
  intros A f; induction 1 as [|x l m P IH|x y l|l m k P IH Q JH]; cbn [filter];
    [reflexivity| | |congruence].
  - destruct (f x); cbn [length]; lia.
  - destruct (f x), (f y); reflexivity.
Qed.

Lemma fits_unique : forall w x y k, 0 < w -> fits w x -> fits w y -> x = y + k * 2 ^ w -> x = y.
Proof.
  intros w x y k W Fx Fy E. unfold fits in *.
  assert (D : 2 ^ w = 2 * 2 ^ (w - 1))
    by (rewrite <- Z.pow_succ_r by lia; f_equal; lia).
  assert (0 < 2 ^ (w - 1)) by (apply Z.pow_pos_nonneg; lia).
  assert (k = 0) by nia. subst k. lia.
Qed.

(* The result pins the value down, so any two orders agree. *)
Lemma op_result_unique : forall w o l m r s, 0 < w -> Permutation l m ->
  op_result w o l r -> op_result w o m s -> r = s.
Proof.
  intros w o l m r s W P R S'.
  assert (I : forall x, In x l <-> In x m)
    by (intro x; split; apply Permutation_in; [exact P|apply Permutation_sym, P]).
  destruct o; cbn [op_result] in *.
  - destruct R as [F [k K]], S' as [G [j J]]. rewrite <- (zsum_perm _ _ P) in J.
    apply (fits_unique w r s (k - j) W F G). rewrite K, J. ring.
  - destruct R as [R1 R2], S' as [S1 S2].
    pose proof (R2 s (proj2 (I s) S1)). pose proof (S2 r (proj1 (I r) R1)). lia.
  - destruct R as [R1 R2], S' as [S1 S2].
    pose proof (R2 s (proj2 (I s) S1)). pose proof (S2 r (proj1 (I r) R1)). lia.
  - destruct R as [[-> R]|[-> R]], S' as [[-> S']|[-> S']]; try reflexivity; exfalso.
    + apply (R 0); [apply I, S'|reflexivity].
    + apply (S' 0); [apply I, R|reflexivity].
  - destruct R as [[-> R]|[-> R]], S' as [[-> S']|[-> S']]; try reflexivity; exfalso.
    + destruct R as [x [Hx N]]. apply N, S', I, Hx.
    + destruct S' as [x [Hx N]]. apply N, R, I, Hx.
  - destruct R as [F [k K]], S' as [G [j J]]. rewrite <- (zprod_perm _ _ P) in J.
    apply (fits_unique w r s (k - j) W F G). rewrite K, J. ring.
  - unfold nonzeros in *. rewrite (filter_perm _ _ _ _ P) in R. congruence.
  - apply Z.bits_inj'. intros i Hi. apply eq_true_iff_eq. rewrite (R i Hi), (S' i Hi).
    split; intros H x Hx; apply H, I, Hx.
  - apply Z.bits_inj'. intros i Hi. apply eq_true_iff_eq. rewrite (R i Hi), (S' i Hi).
    split; intros [x [Hx N]]; exists x; split; auto; apply I, Hx.
  - apply Z.bits_inj'. intros i Hi. rewrite (R i Hi), (S' i Hi).
    rewrite (filter_perm _ _ _ _ P). reflexivity.
Qed.

Theorem int_ops_order_independent : forall w o f t1 t2, 0 < w -> int_fxns w o = Some f ->
  Permutation (leaves t1) (leaves t2) ->
  (forall x, In x (leaves t1) -> fits w x) -> eval f t1 = eval f t2.
Proof.
  intros w o f t1 t2 W E P H.
  assert (H2 : forall x, In x (leaves t2) -> fits w x)
    by (intros x Hx; apply H; eapply Permutation_in; [apply Permutation_sym, P|exact Hx]).
  destruct (Nat.le_gt_cases 2 (length (leaves t1))) as [L|L].
  - apply (op_result_unique w o (leaves t1) (leaves t2)); [exact W|exact P| |];
      apply int_ops_correct_partial; auto.
    rewrite <- (Permutation_length P). exact L.
  - assert (N : forall A (t : tree A), (1 <= length (leaves t))%nat).
    { intros A t; induction t as [x|a IHa b IHb]; cbn [leaves length]; [lia|].
      rewrite app_length. lia. }
    assert (Q : forall A (t : tree A), (length (leaves t) < 2)%nat -> exists x, t = Leaf x).
    { intros A [x|a b]; [eauto|]. cbn [leaves]. rewrite app_length.
      pose proof (N _ a). pose proof (N _ b). lia. }
    destruct (Q _ t1 L) as [x ->]. destruct (Q _ t2) as [y ->].
    { rewrite <- (Permutation_length P). exact L. }
    cbn [leaves] in P. apply Permutation_length_1 in P. exact P.
Qed.
Print Assumptions int_ops_order_independent.

(* MPI_BXOR is missing from every integer type: asking for it aborts. *)
Theorem int_ops_complete_refuted : exists o, forall w, int_fxns w o = None.
Proof. exists BXOR. reflexivity. Qed.
Print Assumptions int_ops_complete_refuted.

(* ---------- examples ---------- *)

Definition ex_t (a b c d : list pair) : tree (list pair) :=
  Node (Node (Leaf a) (Leaf b)) (Node (Leaf c) (Leaf d)).
Definition pr (v i : Z) : pair := {| p_value := v; p_index := i |}.

Example maxloc_example :
  eval (reduce_op maxloc_op 2)
    (ex_t [pr 3 0; pr 1 0] [pr 7 1; pr 1 1] [pr 7 2; pr 0 2] [pr (-4) 3; pr 1 3])
  = [pr 7 1; pr 1 0] /\
  eval (reduce_op maxloc_op 2)
    (ex_t [pr (-4) 3; pr 1 3] [pr 7 2; pr 0 2] [pr 7 1; pr 1 1] [pr 3 0; pr 1 0])
  = [pr 7 1; pr 1 0] /\
  eval (reduce_op minloc_op 2)
    (ex_t [pr (-4) 3; pr 1 3] [pr 7 2; pr 0 2] [pr 7 1; pr 1 1] [pr 3 0; pr 1 0])
  = [pr (-4) 3; pr 0 2].
Proof. repeat split. Qed.

(* 8 bit sums wrap; LAND of 2 and 4 is 1, their BAND is 0. *)
Example int_ops_example :
  eval (add_op 8) (Node (Leaf 100) (Node (Leaf 100) (Leaf 1))) = -55 /\
  eval land_op (Node (Leaf 2) (Leaf 4)) = 1 /\
  eval band_op (Node (Leaf 2) (Leaf 4)) = 0 /\
  eval lxor_op (Node (Leaf 2) (Node (Leaf 4) (Leaf 9))) = 1.
Proof. repeat split. Qed.

Example int_ops_hyp : forall x, In x (leaves (Node (Leaf 100) (Leaf (-128)))) -> fits 8 x.
Proof. intros x [<-|[<-|[]]]; unfold fits; cbn; lia. Qed.
