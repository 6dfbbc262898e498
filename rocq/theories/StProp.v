(** C47, C48, C77: time-quanta statistics and histograms. *)
From Coq Require Import List Arith Bool Lia QArith Qround ZArith Lqa.
From Verif Require Import StModel.
Import ListNotations.
Local Open Scope nat_scope.

(** ** Specification *)

(** The ticks of event [e] that fall into epoch [ep]. *)
Definition overlap (T ep : nat) (e : fev) : nat :=
  Nat.min (fstop e) ((ep + 1) * T) - Nat.max (fstart e) (ep * T).

Definition total {A} (f : A -> nat) (l : list A) : nat := fold_right (fun x s => f x + s) 0 l.

(** ** Arrays *)

Lemma bump_ok : forall arr i x, i < length arr -> exists a, bump arr i x = Some a /\ length a = length arr /\
  forall j, nth j a 0 = nth j arr 0 + if j =? i then x else 0.
Proof.
  induction arr as [|y arr IH]; intros i x L; simpl in L; [lia|]. destruct i as [|i]; simpl.
  - eexists. split; [reflexivity|]. split; [reflexivity|]. intros [|j]; simpl; lia.
  - destruct (IH i x ltac:(lia)) as (a & E & La & Na). rewrite E. eexists. split; [reflexivity|].
    split; [simpl; congruence|]. intros [|j]; simpl; [lia|apply Na].
Qed.

Lemma bump_some : forall arr i x a, bump arr i x = Some a -> i < length arr.
Proof.
  induction arr as [|y arr IH]; intros [|i] x a H; simpl in *; try discriminate; try lia.
  destruct (bump arr i x) eqn:E; [|discriminate]. apply IH in E. lia.
Qed.

Lemma flat n a b i j : i < n -> j < n -> (a * n + i =? b * n + j) = (a =? b) && (i =? j).
Proof.
  intros I J. destruct (Nat.eqb_spec a b) as [->|N]; simpl.
  - destruct (Nat.eqb_spec i j) as [->|M]; [apply Nat.eqb_refl|apply Nat.eqb_neq; lia].
  - apply Nat.eqb_neq. intro E. apply N. nia.
Qed.

Lemma bump_ep_ok n nep col arr ep x : length arr = n * nep -> col < n -> ep < nep ->
  exists a, bump_ep n col arr ep x = Some a /\ length a = n * nep /\
  forall ep' col', col' < n -> nth (ep' * n + col') a 0 =
    nth (ep' * n + col') arr 0 + if (ep' =? ep) && (col' =? col) then x else 0.
Proof.
  intros L C E. destruct (bump_ok arr (ep * n + col) x) as (a & H & La & Na); [rewrite L; nia|].
  exists a. split; [exact H|]. split; [congruence|]. intros ep' col' C'. rewrite Na, flat by assumption. reflexivity.
Qed.

Lemma bump_all_ok n nep col x : forall m s arr, length arr = n * nep -> col < n -> s + m <= nep ->
  exists a, bump_all n col x (seq s m) arr = Some a /\ length a = n * nep /\
  forall ep' col', col' < n -> nth (ep' * n + col') a 0 =
    nth (ep' * n + col') arr 0 + if ((s <=? ep') && (ep' <? s + m)) && (col' =? col) then x else 0.
Proof.
  induction m as [|m IH]; intros s arr L C E.
  - exists arr. split; [reflexivity|]. split; [exact L|]. intros ep' col' _.
    destruct (Nat.leb_spec s ep'), (Nat.ltb_spec ep' (s + 0)); simpl; lia.
  - destruct (bump_ep_ok n nep col arr s x L C ltac:(lia)) as (a & H & La & Na).
    destruct (IH (S s) a La C ltac:(lia)) as (b & Hb & Lb & Nb). exists b. cbn [seq bump_all]. rewrite H.
    split; [exact Hb|]. split; [exact Lb|]. intros ep' col' C'. rewrite Nb, Na by exact C'.
    destruct (Nat.eqb_spec ep' s), (Nat.leb_spec s ep'), (Nat.leb_spec (S s) ep'), (Nat.ltb_spec ep' (S s + m)),
      (Nat.ltb_spec ep' (s + S m)), (col' =? col); simpl; lia.
Qed.

(** ** C47 *)

Section Ftq.
Variable T : nat.
Hypothesis T_pos : 0 < T.

Lemma div_bounds a : a / T * T <= a /\ a < (a / T + 1) * T.
Proof. pose proof (Nat.div_mod a T ltac:(lia)). pose proof (Nat.mod_upper_bound a T ltac:(lia)). nia. Qed.

Lemma add_event_ok n nep col arr e : length arr = n * nep -> col < n -> fstop e / T < nep ->
  exists a, add_event T n col 1 arr e = Some a /\ length a = n * nep /\
  forall ep' col', col' < n -> nth (ep' * n + col') a 0 =
    nth (ep' * n + col') arr 0 + if col' =? col then overlap T ep' e else 0.
Proof.
  intros L C E. unfold add_event. pose proof (div_bounds (fstart e)) as [B1 B2]. pose proof (div_bounds (fstop e)) as [B3 B4].
  assert (B5: fstart e / T <= fstop e / T) by (apply Nat.div_le_mono; unfold fstop; lia).
  set (s := fstart e / T) in *. set (t := fstop e / T) in *.
  destruct (Nat.eqb_spec s t) as [Q|Q].
  - destruct (bump_ep_ok n nep col arr s (flen e) L C ltac:(lia)) as (a & H & La & Na). exists a. split; [exact H|].
    split; [exact La|]. intros ep' col' C'. rewrite Na by exact C'. f_equal.
    destruct (Nat.eqb_spec ep' s) as [->|N]; simpl; destruct (col' =? col); auto.
    + unfold overlap, fstop in *. rewrite <- Q in B4. lia.
    + unfold overlap. unfold fstop in *. rewrite <- Q in B4. destruct (Nat.lt_trichotomy ep' s) as [O|[O|O]]; [|lia|];
        [assert ((ep' + 1) * T <= s * T) by (apply Nat.mul_le_mono_r; lia)|assert ((s + 1) * T <= ep' * T) by (apply Nat.mul_le_mono_r; lia)]; lia.
  - destruct (bump_ep_ok n nep col arr s (((s + 1) * T - fstart e) * 1) L C ltac:(lia)) as (a & H & La & Na). rewrite H.
    destruct (bump_ep_ok n nep col a t ((fstop e - t * T) * 1) La C E) as (b & Hb & Lb & Nb). rewrite Hb.
    destruct (bump_all_ok n nep col (T * 1) (t - (s + 1)) (s + 1) b Lb C ltac:(lia)) as (c & Hc & Lc & Nc).
    exists c. split; [exact Hc|]. split; [exact Lc|]. intros ep' col' C'. rewrite Nc, Nb, Na by exact C'.
    rewrite <- !Nat.add_assoc. f_equal. destruct (col' =? col); [|rewrite !andb_false_r; reflexivity]. rewrite !andb_true_r, !Nat.mul_1_r.
    unfold overlap. assert (s < t) by lia. assert (K1: (s + 1) * T <= t * T) by (apply Nat.mul_le_mono_r; lia).
    destruct (Nat.eqb_spec ep' s) as [->|N1].
    + assert ((s + 1 <=? s) = false) as -> by (apply Nat.leb_gt; lia).
      assert ((s =? t) = false) as -> by (apply Nat.eqb_neq; lia). cbn [andb]; cbv iota. lia.
    + destruct (Nat.eqb_spec ep' t) as [->|N2].
      * assert ((t <? s + (1 + (t - (s + 1)))) = false) as -> by (apply Nat.ltb_ge; lia). rewrite andb_false_r; cbv iota. lia.
      * destruct (Nat.leb_spec (s + 1) ep') as [O|O].
        -- destruct (Nat.ltb_spec ep' (s + (1 + (t - (s + 1))))) as [O2|O2]; cbn [andb]; cbv iota.
           ++ assert ((ep' + 1) * T <= t * T) by (apply Nat.mul_le_mono_r; lia). assert ((s + 1) * T <= ep' * T) by (apply Nat.mul_le_mono_r; lia). lia.
           ++ assert ((t + 1) * T <= ep' * T) by (apply Nat.mul_le_mono_r; lia). lia.
        -- cbn [andb]; cbv iota. assert ((ep' + 1) * T <= s * T) by (apply Nat.mul_le_mono_r; lia). lia.
Qed.

Lemma add_events_ok n nep col : forall evs arr, length arr = n * nep ->
  (forall e, In e evs -> col e < n /\ fstop e / T < nep) ->
  exists a, add_events T n col (fun _ => 1) arr evs = Some a /\ length a = n * nep /\
  forall ep' col', col' < n -> nth (ep' * n + col') a 0 =
    nth (ep' * n + col') arr 0 + total (fun e => if col' =? col e then overlap T ep' e else 0) evs.
Proof.
  induction evs as [|e evs IH]; intros arr L H.
  - exists arr. split; [reflexivity|]. split; [exact L|]. intros. simpl. lia.
  - destruct (H e (or_introl eq_refl)) as [C E]. destruct (add_event_ok n nep (col e) arr e L C E) as (a & Ha & La & Na).
    destruct (IH a La ltac:(intros x X; apply H; right; exact X)) as (b & Hb & Lb & Nb).
    exists b. cbn [add_events]. rewrite Ha. split; [exact Hb|]. split; [exact Lb|].
    intros ep' col' C'. rewrite Nb, Na by exact C'. cbn [total fold_right]. unfold total. lia.
Qed.

End Ftq.

Lemma used_in evs e : In e evs -> used evs (fty e) = true.
Proof. intro H. apply existsb_exists. exists e. split; [exact H|apply Nat.eqb_refl]. Qed.

Lemma dense_lt evs a b : a < b -> used evs a = true -> dense evs a < dense evs b.
Proof.
  intros L U. unfold dense. replace b with (a + S (b - a - 1)) by lia. rewrite seq_app, filter_app, app_length. cbn [seq filter Nat.add].
  rewrite U. simpl. lia.
Qed.

Lemma dense_inj evs a b : used evs a = true -> used evs b = true -> (dense evs a =? dense evs b) = (a =? b).
Proof.
  intros A B. destruct (Nat.lt_trichotomy a b) as [L|[->|L]].
  - pose proof (dense_lt evs a b L A). destruct (Nat.eqb_spec a b), (Nat.eqb_spec (dense evs a) (dense evs b)); lia || reflexivity.
  - rewrite !Nat.eqb_refl. reflexivity.
  - pose proof (dense_lt evs b a L B). destruct (Nat.eqb_spec a b), (Nat.eqb_spec (dense evs a) (dense evs b)); lia || reflexivity.
Qed.

Lemma dense_bound k evs a : a < k -> used evs a = true -> dense evs a < length (sparse k evs).
Proof. intros L U. apply (dense_lt evs a k L U). Qed.

(** The header column [dense evs ty] is labelled [ty]. *)
Lemma sparse_dense k evs a : a < k -> used evs a = true -> nth (dense evs a) (sparse k evs) 0 = a.
Proof.
  intros L U. unfold sparse, dense. replace k with (a + S (k - a - 1)) by lia.
  rewrite seq_app, filter_app, app_nth2 by lia. rewrite Nat.sub_diag. cbn [seq filter Nat.add]. rewrite U. reflexivity.
Qed.

Lemma fold_max_ge l : forall a, a <= fold_left Nat.max l a /\ forall x, In x l -> x <= fold_left Nat.max l a.
Proof.
  induction l as [|y l IH]; intro a; simpl; [split; [lia|intros x []]|].
  destruct (IH (Nat.max a y)) as [A B]. split; [lia|]. intros x [<-|X]; [lia|apply B, X].
Qed.

(** A calendar as collected: events in time order. *)
Fixpoint in_order (t : nat) (cal : list fev) : Prop :=
  match cal with
  | [] => True
  | e :: r => t <= fstart e /\ in_order (fstop e) r
  end.

Lemma in_order_last : forall cal t e, in_order t cal -> In e cal -> fstop e <= max_tick cal.
Proof.
  assert (G: forall cal t d, in_order t cal -> cal <> [] -> t <= fstop (last cal d) /\ forall e, In e cal -> fstop e <= fstop (last cal d)).
  { induction cal as [|x cal IH]; intros t d O N; [contradiction|]. destruct O as [O1 O2]. destruct cal as [|y cal].
    - simpl. unfold fstop at 1. split; [unfold fstop in *; lia|]. intros e [<-|[]]. lia.
    - destruct (IH (fstop x) d O2 ltac:(discriminate)) as [A B]. change (last (x :: y :: cal) d) with (last (y :: cal) d).
      split; [unfold fstop in *; lia|]. intros e [<-|E]; [exact A|apply B, E]. }
  intros cal t e O E. destruct cal as [|x cal]; [destruct E|]. apply (G (x :: cal) t (Fev 0 0 0) O ltac:(discriminate)), E.
Qed.

Lemma padded_stop inact cals e : Forall (in_order 0) cals -> In e (concat (padded inact cals)) -> fstop e <= all_ticks cals.
Proof.
  intros F E. apply in_concat in E. destruct E as (c & C & E). apply in_map_iff in C. destruct C as (cal & <- & C).
  assert (M: max_tick cal <= all_ticks cals) by (apply fold_max_ge, in_map, C).
  rewrite Forall_forall in F. specialize (F cal C). unfold pad, add_data in E.
  destruct (_ =? 0); [pose proof (in_order_last cal 0 e F E); lia|].
  apply in_app_or in E. destruct E as [E|[<-|[]]]; [pose proof (in_order_last cal 0 e F E); lia|]. unfold fstop. simpl. lia.
Qed.

Lemma total_ext {A} (f g : A -> nat) l : (forall x, In x l -> f x = g x) -> total f l = total g l.
Proof.
  induction l as [|x l IH]; intro H; simpl; [reflexivity|]. rewrite (H x (or_introl eq_refl)). f_equal. apply IH.
  intros y Y. apply H. right. exact Y.
Qed.

(** The output when the last event does not end on an epoch boundary: each cell is the
    time of that state within that epoch, over all calendars. *)
Theorem C47_cells_partial :
  forall ntypes T inact cals, 31 <= ntypes -> 0 < T -> Forall (in_order 0) cals ->
  (forall e, In e (concat (padded inact cals)) -> fty e < 31) -> all_ticks cals mod T <> 0 ->
  let evs := concat (padded inact cals) in
  exists arr, table ntypes false T inact cals = Some arr /\
    forall ty ep, used evs ty = true -> nth (dense evs ty) (sparse ntypes evs) 0 = ty /\
      nth (ep * length (sparse ntypes evs) + dense evs ty) arr 0 =
      total (fun e => if fty e =? ty then overlap T ep e else 0) evs.
Proof.
  intros ntypes T inact cals NT P F Ty B evs. unfold table. fold evs.
  assert (Ne: num_epochs T (all_ticks cals) = S (all_ticks cals / T)).
  { unfold num_epochs. destruct (Nat.eqb_spec (all_ticks cals mod T) 0); [contradiction|reflexivity]. }
  rewrite Ne. set (n := length (sparse ntypes evs)). set (nep := S (all_ticks cals / T)).
  destruct (add_events_ok T P n nep (fun e => dense evs (fty e)) evs (repeat 0 (n * nep))) as (a & Ha & La & Na).
  - apply repeat_length.
  - intros e E. split; [apply dense_bound; [specialize (Ty e E); lia|apply used_in, E]|].
    unfold nep. apply Nat.lt_succ_r, Nat.div_le_mono; [lia|]. apply (padded_stop inact), E. exact F.
  - exists a. split; [exact Ha|]. intros ty ep U.
    assert (L: ty < ntypes).
    { apply existsb_exists in U. destruct U as (e & E & Q). apply Nat.eqb_eq in Q. specialize (Ty e E). lia. }
    split; [apply sparse_dense; assumption|]. rewrite Na by (apply dense_bound; assumption).
    replace (nth _ (repeat 0 (n * nep)) 0) with 0 by (symmetry; destruct (Nat.lt_ge_cases (ep * n + dense evs ty) (n * nep));
      [apply nth_repeat|apply nth_overflow; rewrite repeat_length; lia]).
    cbn [Nat.add]. apply total_ext. intros e E. rewrite dense_inj by (auto; apply used_in, E). rewrite Nat.eqb_sym. reflexivity.
Qed.
Print Assumptions C47_cells_partial.

(** Overlaps add up to the event's length. *)
Lemma overlap_sum T e : 0 < T -> forall m, fstop e <= m * T ->
  total (fun ep => overlap T ep e) (seq 0 m) = flen e.
Proof.
  intros P. assert (G: forall m, total (fun ep => overlap T ep e) (seq 0 m) = Nat.min (fstop e) (m * T) - Nat.min (fstart e) (m * T)).
  { assert (A: forall l1 l2, total (fun ep => overlap T ep e) (l1 ++ l2) = total (fun ep => overlap T ep e) l1 + total (fun ep => overlap T ep e) l2).
    { induction l1; intro; simpl; [reflexivity|]. rewrite IHl1. lia. }
    induction m as [|m IH]; [simpl; lia|]. rewrite seq_S, A, IH. simpl (total _ [_]). unfold overlap. cbn [Nat.add].
    assert (fstart e <= fstop e) by (unfold fstop; lia). replace (S m * T) with (m * T + T) by lia.
    replace ((m + 1) * T) with (m * T + T) by lia. lia. }
  intros m L. rewrite G. unfold fstop in *. lia.
Qed.

Lemma total_swap {A B} (f : A -> B -> nat) : forall l k,
  total (fun x => total (f x) k) l = total (fun y => total (fun x => f x y) l) k.
Proof.
  induction l as [|x l IH]; intro k; simpl.
  - induction k; simpl; auto.
  - rewrite IH. clear IH. induction k as [|y k IHk]; simpl; [reflexivity|]. rewrite <- IHk. lia.
Qed.

(** Time is conserved: a state's column adds up to the time spent in the state. *)
Theorem C47_conserved_partial :
  forall ntypes T inact cals, 31 <= ntypes -> 0 < T -> Forall (in_order 0) cals ->
  (forall e, In e (concat (padded inact cals)) -> fty e < 31) -> all_ticks cals mod T <> 0 ->
  let evs := concat (padded inact cals) in
  exists arr, table ntypes false T inact cals = Some arr /\
    forall ty, used evs ty = true ->
      total (fun ep => nth (ep * length (sparse ntypes evs) + dense evs ty) arr 0) (seq 0 (num_epochs T (all_ticks cals))) =
      total (fun e => if fty e =? ty then flen e else 0) evs.
Proof.
  intros ntypes T inact cals NT P F Ty B evs. destruct (C47_cells_partial ntypes T inact cals NT P F Ty B) as (arr & Ha & Hc).
  exists arr. split; [exact Ha|]. intros ty U. fold evs in Hc.
  rewrite (total_ext _ (fun ep => total (fun e => if fty e =? ty then overlap T ep e else 0) evs)) by (intros ep _; apply Hc, U).
  rewrite total_swap. apply total_ext. intros e E. destruct (fty e =? ty).
  - apply overlap_sum; [exact P|]. assert (Q: fstop e <= all_ticks cals) by (apply (padded_stop inact); assumption).
    unfold num_epochs. destruct (Nat.eqb_spec (all_ticks cals mod T) 0); [contradiction|].
    pose proof (div_bounds T P (all_ticks cals)). lia.
  - induction (seq 0 (num_epochs T (all_ticks cals))); simpl; auto.
Qed.
Print Assumptions C47_conserved_partial.

(** False when the simulation ends on an epoch boundary: the code then writes past the
    end of the table. *)
Theorem C47_boundary_refuted :
  exists T inact cals, 0 < T /\ Forall (in_order 0) cals /\
    (forall e, In e (concat (padded inact cals)) -> fty e < 31) /\ table 64 false T inact cals = None.
Proof.
  exists 10, 0, [[Fev 2 0 13; Fev 3 13 7]]. split; [lia|]. split; [repeat constructor; simpl; unfold fstop; simpl; lia|].
  split; [|reflexivity]. intros e E. simpl in E. repeat (destruct E as [<-|E]; [simpl; lia|]). destruct E.
Qed.
Print Assumptions C47_boundary_refuted.

Definition ex_cals : list (list fev) := [[Fev 2 0 13; Fev 3 13 22]; [Fev 3 0 9; Fev 2 10 7]].

Example C47_example : Forall (in_order 0) ex_cals /\ all_ticks ex_cals mod 10 <> 0 /\
  concat (padded 1 ex_cals) = [Fev 2 0 13; Fev 3 13 22; Fev 3 0 9; Fev 2 10 7; Fev 1 17 18] /\
  table 64 false 10 1 ex_cals = Some [0; 10; 9;  3; 10; 7;  10; 0; 10;  5; 0; 5].
Proof. split; [repeat constructor; simpl; unfold fstop; simpl; lia|]. split; [discriminate|]. split; reflexivity. Qed.

(** ** C77: the mean *)

(** The value of each event weights its time, but not for events within one epoch. *)
Theorem C77_mean_refuted :
  exists T inact cals arr, 0 < T /\ Forall (in_order 0) cals /\ table 64 true T inact cals = Some arr /\
    nth 0 arr 0 <> total (fun e => fty e * overlap T 0 e) (concat (padded inact cals)).
Proof.
  exists 10, 1, [[Fev 4 0 5; Fev 2 5 3]]. eexists. split; [lia|].
  split; [repeat constructor; simpl; unfold fstop; simpl; lia|]. split; [reflexivity|]. vm_compute. discriminate.
Qed.
Print Assumptions C77_mean_refuted.

(** What is computed instead: the weight applies to events that cross a boundary. *)
Theorem C77_mean_partial :
  forall ntypes T inact cals, 31 <= ntypes -> 0 < T -> Forall (in_order 0) cals -> all_ticks cals mod T <> 0 ->
  let evs := concat (padded inact cals) in
  exists arr, table ntypes true T inact cals = Some arr /\
    forall ep, nth ep arr 0 =
      total (fun e => (if fstart e / T =? fstop e / T then 1 else fty e) * overlap T ep e) evs.
Proof.
  intros ntypes T inact cals NT P F B evs.
  assert (Ne: num_epochs T (all_ticks cals) = S (all_ticks cals / T)).
  { unfold num_epochs. destruct (Nat.eqb_spec (all_ticks cals mod T) 0); [contradiction|reflexivity]. }
  assert (G: forall l arr, length arr = num_epochs T (all_ticks cals) -> (forall e, In e l -> In e evs) ->
    exists a, add_events T 1 (fun _ => 0) fty arr l = Some a /\ length a = length arr /\
      forall ep, nth ep a 0 = nth ep arr 0 +
        total (fun e => (if fstart e / T =? fstop e / T then 1 else fty e) * overlap T ep e) l).
  { induction l as [|e l IH]; intros arr L H.
    - exists arr. split; [reflexivity|]. split; [reflexivity|]. intro. simpl. lia.
    - assert (E: fstop e / T < num_epochs T (all_ticks cals)).
      { rewrite Ne. apply Nat.lt_succ_r, Nat.div_le_mono; [lia|]. apply (padded_stop inact cals e F), H. left. reflexivity. }
      assert (A: exists a, add_event T 1 0 (fty e) arr e = Some a /\ length a = length arr /\
        forall ep, nth ep a 0 = nth ep arr 0 + (if fstart e / T =? fstop e / T then 1 else fty e) * overlap T ep e).
      { (* reduce to scale 1 by hand: the three writes *)
        unfold add_event. pose proof (div_bounds T P (fstart e)) as [B1 B2]. pose proof (div_bounds T P (fstop e)) as [B3 B4].
        assert (B5: fstart e / T <= fstop e / T) by (apply Nat.div_le_mono; unfold fstop; lia).
        set (s := fstart e / T) in *. set (t := fstop e / T) in *. set (nep := num_epochs T (all_ticks cals)) in *.
        assert (L1: length arr = 1 * nep) by lia.
        destruct (Nat.eqb_spec s t) as [Q|Q].
        - destruct (bump_ep_ok 1 nep 0 arr s (flen e) L1 ltac:(lia) ltac:(lia)) as (a & Ha & La & Na).
          exists a. split; [exact Ha|]. split; [lia|]. intro ep. specialize (Na ep 0 ltac:(lia)).
          rewrite Nat.mul_1_r, Nat.add_0_r in Na. rewrite Na. f_equal. rewrite andb_true_r, Nat.mul_1_l.
          clear Na. unfold overlap. destruct (Nat.eqb_spec ep s) as [Es|N].
          + rewrite Es. unfold fstop in *. rewrite <- Q in B4. lia.
          + unfold fstop in *. rewrite <- Q in B4. destruct (Nat.lt_trichotomy ep s) as [O|[O|O]]; [|lia|];
              [assert ((ep + 1) * T <= s * T) by (apply Nat.mul_le_mono_r; lia)|assert ((s + 1) * T <= ep * T) by (apply Nat.mul_le_mono_r; lia)]; lia.
        - destruct (bump_ep_ok 1 nep 0 arr s (((s + 1) * T - fstart e) * fty e) L1 ltac:(lia) ltac:(lia)) as (a & Ha & La & Na). rewrite Ha.
          destruct (bump_ep_ok 1 nep 0 a t ((fstop e - t * T) * fty e) La ltac:(lia) E) as (b & Hb & Lb & Nb). rewrite Hb.
          destruct (bump_all_ok 1 nep 0 (T * fty e) (t - (s + 1)) (s + 1) b Lb ltac:(lia) ltac:(lia)) as (c & Hc & Lc & Nc).
          exists c. split; [exact Hc|]. split; [lia|]. intro ep. specialize (Na ep 0 ltac:(lia)). specialize (Nb ep 0 ltac:(lia)). specialize (Nc ep 0 ltac:(lia)).
          rewrite Nat.mul_1_r, Nat.add_0_r in Na, Nb, Nc. rewrite Nc, Nb, Na, <- !Nat.add_assoc. f_equal. rewrite !andb_true_r.
          assert (K1: (s + 1) * T <= t * T) by (apply Nat.mul_le_mono_r; lia). rewrite (Nat.mul_comm (fty e)).
          clear Na Nb Nc. unfold overlap. destruct (Nat.eqb_spec ep s) as [->|N1].
          + assert ((s + 1 <=? s) = false) as -> by (apply Nat.leb_gt; lia).
            assert ((s =? t) = false) as -> by (apply Nat.eqb_neq; lia). cbn [andb]; cbv iota. rewrite !Nat.add_0_r. f_equal. lia.
          + destruct (Nat.eqb_spec ep t) as [->|N2].
            * assert ((t <? s + (1 + (t - (s + 1)))) = false) as -> by (apply Nat.ltb_ge; lia). rewrite andb_false_r; cbv iota. rewrite Nat.add_0_r. cbn [Nat.add]. f_equal. lia.
            * cbv iota. rewrite !Nat.add_0_l. destruct (Nat.leb_spec (s + 1) ep) as [O|O].
              -- destruct (Nat.ltb_spec ep (s + (1 + (t - (s + 1))))) as [O2|O2]; cbn [andb]; cbv iota.
                 ++ f_equal. assert ((ep + 1) * T <= t * T) by (apply Nat.mul_le_mono_r; lia). assert ((s + 1) * T <= ep * T) by (apply Nat.mul_le_mono_r; lia). lia.
                 ++ assert ((t + 1) * T <= ep * T) by (apply Nat.mul_le_mono_r; lia).
                    replace (Nat.min (fstop e) ((ep + 1) * T) - Nat.max (fstart e) (ep * T)) with 0 by lia. reflexivity.
              -- cbn [andb]. cbv iota. assert ((ep + 1) * T <= s * T) by (apply Nat.mul_le_mono_r; lia).
                 replace (Nat.min (fstop e) ((ep + 1) * T) - Nat.max (fstart e) (ep * T)) with 0 by lia. reflexivity. }
      destruct A as (a & Ha & La & Na).
      destruct (IH a ltac:(lia) ltac:(intros x X; apply H; right; exact X)) as (b & Hb & Lb & Nb).
      exists b. cbn [add_events]. rewrite Ha. split; [exact Hb|]. split; [lia|].
      intro ep. rewrite Nb, Na. cbn [total fold_right]. unfold total. lia. }
  destruct (G evs (repeat 0 (num_epochs T (all_ticks cals))) (repeat_length _ _) (fun e H => H)) as (a & Ha & _ & Na).
  exists a. unfold table. fold evs. rewrite Nat.mul_1_l. split; [exact Ha|]. intro ep. rewrite Na.
  replace (nth ep (repeat 0 (num_epochs T (all_ticks cals))) 0) with 0; [reflexivity|]. symmetry.
  destruct (Nat.lt_ge_cases ep (num_epochs T (all_ticks cals))); [apply nth_repeat|apply nth_overflow; rewrite repeat_length; lia].
Qed.
Print Assumptions C77_mean_partial.

(** Rows: calendars without gaps account for every tick of every full epoch. *)
Fixpoint no_gap (t : nat) (cal : list fev) : Prop :=
  match cal with
  | [] => True
  | e :: r => fstart e = t /\ no_gap (fstop e) r
  end.

Lemma no_gap_order : forall cal t, no_gap t cal -> in_order t cal.
Proof. induction cal as [|e r IH]; intros t H; simpl in *; [exact Logic.I|]. destruct H as [-> H]. split; [lia|apply IH, H]. Qed.

Lemma no_gap_sum T ep : forall cal t, no_gap t cal -> cal <> [] ->
  t <= max_tick cal /\
  total (overlap T ep) cal = Nat.min (max_tick cal) ((ep + 1) * T) - Nat.max t (ep * T).
Proof.
  induction cal as [|e r IH]; intros t H N; [contradiction|]. destruct H as [H1 H2]. destruct r as [|e' r].
  - cbn [max_tick last total fold_right]. unfold overlap. rewrite H1. split; [unfold fstop; lia|lia].
  - destruct (IH (fstop e) H2 ltac:(discriminate)) as [I1 I2].
    change (max_tick (e :: e' :: r)) with (max_tick (e' :: r)). change (total (overlap T ep) (e :: e' :: r)) with
      (overlap T ep e + total (overlap T ep) (e' :: r)). rewrite I2.
    unfold overlap. assert (t <= fstop e) by (unfold fstop; lia). rewrite H1. split; lia.
Qed.

Lemma pad_no_gap inact mt cal : no_gap 0 cal -> max_tick cal <= mt -> 0 < mt ->
  no_gap 0 (pad inact mt cal) /\ pad inact mt cal <> [] /\ max_tick (pad inact mt cal) = mt.
Proof.
  intros G M P. unfold pad, add_data. destruct (Nat.eqb_spec (mt - max_tick cal) 0) as [E|E].
  - split; [exact G|]. split; [intros ->; simpl in *; lia|lia].
  - assert (A: forall cal t n, no_gap t cal -> no_gap t (cal ++ [Fev inact (match cal with [] => t | _ => max_tick cal end) n])).
    { clear. induction cal as [|e r IH]; intros t n H; simpl; [split; auto|]. destruct H as [H1 H2]. split; [exact H1|].
      specialize (IH (fstop e) n H2). destruct r as [|e' r]; [exact IH|]. exact IH. }
    split.
    + specialize (A cal 0 (mt - max_tick cal) G). destruct cal; exact A.
    + split; [destruct cal; discriminate|].
      assert (B: forall l x, max_tick (l ++ [x]) = fstop x).
      { intros l x. unfold max_tick. destruct (l ++ [x]) eqn:E1; [destruct l; discriminate|]. rewrite <- E1, last_last. reflexivity. }
      rewrite B. unfold fstop. simpl. lia.
Qed.

Lemma total_app {A} (f : A -> nat) : forall l1 l2, total f (l1 ++ l2) = total f l1 + total f l2.
Proof. induction l1; intro; simpl; [reflexivity|]. rewrite IHl1. lia. Qed.

Lemma total_nodup_pick (l : list nat) t x : NoDup l -> In t l -> total (fun u => if t =? u then x else 0) l = x.
Proof.
  induction l as [|y l IH]; intros N I; [destruct I|]. inversion N as [|? ? N1 N2]; subst. cbn [total fold_right].
  destruct (Nat.eqb_spec t y) as [->|E].
  - assert (Z: fold_right (fun u s => (if y =? u then x else 0) + s) 0 l = 0).
    { clear IH N N2 I. induction l as [|z l IH]; [reflexivity|]. simpl. destruct (Nat.eqb_spec y z) as [->|E]; [exfalso; apply N1; left; reflexivity|].
      rewrite IH; [reflexivity|]. intro Q. apply N1. right. exact Q. }
    rewrite Z. lia.
  - destruct I as [->|I]; [contradiction|]. apply (IH N2 I).
Qed.

Theorem C47_rows_partial :
  forall ntypes T inact cals, 31 <= ntypes -> 0 < T -> Forall (no_gap 0) cals ->
  (forall e, In e (concat (padded inact cals)) -> fty e < 31) -> all_ticks cals mod T <> 0 ->
  let evs := concat (padded inact cals) in
  exists arr, table ntypes false T inact cals = Some arr /\
    forall ep, (ep + 1) * T <= all_ticks cals ->
      total (fun ty => nth (ep * length (sparse ntypes evs) + dense evs ty) arr 0) (sparse ntypes evs) = length cals * T.
Proof.
  intros ntypes T inact cals NT P F Ty B evs.
  destruct (C47_cells_partial ntypes T inact cals NT P) as (arr & Ha & Hc); auto.
  { apply Forall_forall. intros c C. rewrite Forall_forall in F. apply no_gap_order, F, C. }
  exists arr. split; [exact Ha|]. intros ep L. fold evs in Hc.
  rewrite (total_ext _ (fun ty => total (fun e => if fty e =? ty then overlap T ep e else 0) evs)).
  2:{ intros ty X. apply Hc. unfold sparse in X. apply filter_In in X. apply X. }
  rewrite total_swap. rewrite (total_ext _ (overlap T ep)).
  2:{ intros e E. apply total_nodup_pick.
      - unfold sparse. apply NoDup_filter, seq_NoDup.
      - unfold sparse. apply filter_In. split; [apply in_seq; specialize (Ty e E); lia|apply used_in, E]. }
  assert (Mp: 0 < all_ticks cals) by nia.
  assert (M: forall c, In c cals -> max_tick c <= all_ticks cals) by (intros c C; apply fold_max_ge, in_map, C).
  unfold evs, padded. revert L Mp M. generalize (all_ticks cals). clear - F P. intros mt L Mp M.
  induction cals as [|c cals IH]; [reflexivity|]. inversion F as [|? ? F1 F2]; subst. cbn [map concat length].
  rewrite total_app, IH; auto; [|intros x X; apply M; right; exact X].
  destruct (pad_no_gap inact mt c F1 (M c (or_introl eq_refl)) Mp) as (G & N & E).
  destruct (no_gap_sum T ep _ 0 G N) as [_ S]. rewrite S, E. lia.
Qed.
Print Assumptions C47_rows_partial.

Example C47_rows_example : Forall (no_gap 0) [[Fev 2 0 13; Fev 3 13 22]; [Fev 3 0 9; Fev 2 9 7]].
Proof. repeat constructor. Qed.

(** ** C48 *)

Definition in_bin (mn b : Q) (k : nat) (v : Q) : bool :=
  Qle_bool (mn + inject_Z (Z.of_nat k) * b) v && negb (Qle_bool (mn + inject_Z (Z.of_nat k + 1) * b) v).

Lemma qle_false a b : Qle_bool a b = false <-> (b < a)%Q.
Proof.
  destruct (Qle_bool a b) eqn:E; split; intro H; try discriminate; auto.
  - apply Qle_bool_iff in E. lra.
  - apply Qnot_le_lt. intro L. apply Qle_bool_iff in L. congruence.
Qed.

Lemma in_bin_iff mn b k v : (0 < b)%Q -> (mn <= v)%Q ->
  in_bin mn b k v = (k =? Z.to_nat (Qfloor ((v - mn) / b))).
Proof.
  intros B L. set (q := ((v - mn) / b)%Q). assert (Q0: (0 <= q)%Q) by (unfold q; apply Qle_shift_div_l; lra).
  assert (F0: (0 <= Qfloor q)%Z) by (apply (Qfloor_resp_le 0 q Q0)).
  assert (V: v == mn + q * b) by (unfold q; field; lra).
  pose proof (Qfloor_le q) as F1. pose proof (Qlt_floor q) as F2.
  unfold in_bin. destruct (Nat.eqb_spec k (Z.to_nat (Qfloor q))) as [->|N].
  - rewrite Z2Nat.id by exact F0. apply andb_true_iff. split.
    + apply Qle_bool_iff. rewrite V. apply Qplus_le_r. apply Qmult_le_compat_r; lra.
    + apply negb_true_iff, qle_false. rewrite V. apply Qplus_lt_r. apply Qmult_lt_compat_r; lra.
  - apply not_true_is_false. intro H. apply andb_true_iff in H. destruct H as [H1 H2].
    apply Qle_bool_iff in H1. apply negb_true_iff, qle_false in H2. rewrite V in H1, H2.
    apply Qplus_le_r in H1. apply Qplus_lt_r in H2. apply Qmult_le_r in H1; [|exact B]. apply Qmult_lt_r in H2; [|exact B].
    apply N. assert (A1: (Z.of_nat k <= Qfloor q)%Z).
    { rewrite <- (Qfloor_Z (Z.of_nat k)). apply Qfloor_resp_le, H1. }
    assert (A2: (Qfloor q < Z.of_nat k + 1)%Z).
    { apply Z.lt_nge. intro X. rewrite Zle_Qle in X. lra. }
    lia.
Qed.

(** Samples other than the maximum: each lands in the one bin whose interval contains it. *)
Theorem C48_bins_partial :
  forall tr mn mx nbins b l, (mn < mx)%Q -> bin_size mn mx nbins = Some b ->
  (forall s, In s l -> ~ (tr (fst s) == mx)%Q) ->
  exists counts, add_samples tr mn mx b (repeat 0 (Pos.to_nat nbins)) l = Some counts /\ length counts = Pos.to_nat nbins /\
    forall k, k < Pos.to_nat nbins ->
      nth k counts 0 = total (fun s => if in_bin mn b k (tr (fst s)) then snd s else 0) l.
Proof.
  intros tr mn mx nbins b l W Hb NM.
  unfold bin_size in Hb. cbv zeta in Hb. destruct (Qeq_bool _ 0) eqn:E; [discriminate|]. injection Hb as Hb.
  set (nb := inject_Z (Zpos nbins)) in *.
  assert (NB: (0 < nb)%Q) by (unfold nb; reflexivity).
  assert (B: (0 < b)%Q) by (rewrite <- Hb; apply Qlt_shift_div_l; [exact NB|lra]).
  assert (MX: (mx == mn + nb * b)%Q) by (rewrite <- Hb; field; lra).
  assert (G: forall l counts, length counts = Pos.to_nat nbins -> (forall s, In s l -> ~ (tr (fst s) == mx)%Q) ->
    exists c, add_samples tr mn mx b counts l = Some c /\ length c = Pos.to_nat nbins /\
    forall k, k < Pos.to_nat nbins -> nth k c 0 = nth k counts 0 + total (fun s => if in_bin mn b k (tr (fst s)) then snd s else 0) l).
  { clear l NM. induction l as [|s l IH]; intros counts L NM.
    - exists counts. split; [reflexivity|]. split; [exact L|]. intros k K. simpl. lia.
    - assert (A: exists a, add_sample tr mn mx b counts s = Some a /\ length a = Pos.to_nat nbins /\
        forall k, k < Pos.to_nat nbins -> nth k a 0 = nth k counts 0 + if in_bin mn b k (tr (fst s)) then snd s else 0).
      { unfold add_sample. set (v := tr (fst s)) in *.
        destruct (Qle_bool v mx) eqn:V1; cbn [negb].
        2:{ exists counts. split; [reflexivity|]. split; [exact L|]. intros k K. apply qle_false in V1.
            assert (in_bin mn b k v = false) as ->; [|lia]. unfold in_bin. apply andb_false_iff. right. apply negb_false_iff, Qle_bool_iff.
            assert (K2: (inject_Z (Z.of_nat k + 1) <= nb)%Q) by (unfold nb; rewrite <- Zle_Qle; lia).
            assert (K3: (inject_Z (Z.of_nat k + 1) * b <= nb * b)%Q) by (apply Qmult_le_compat_r; lra). lra. }
        destruct (Qle_bool mn v) eqn:V2; cbn [negb].
        2:{ exists counts. split; [reflexivity|]. split; [exact L|]. intros k K. apply qle_false in V2.
            assert (in_bin mn b k v = false) as ->; [|lia]. unfold in_bin. apply andb_false_iff. left. apply qle_false.
            assert (K2: (0 <= inject_Z (Z.of_nat k))%Q) by (change 0%Q with (inject_Z 0); rewrite <- Zle_Qle; lia).
            assert (K3: (0 * b <= inject_Z (Z.of_nat k) * b)%Q) by (apply Qmult_le_compat_r; lra). lra. }
        apply Qle_bool_iff in V1. apply Qle_bool_iff in V2.
        assert (V3: (v < mx)%Q).
        { destruct (Qlt_le_dec v mx) as [|X]; [assumption|]. exfalso. apply (NM s (or_introl eq_refl)). apply Qle_antisym; assumption. }
        destruct (bump_ok counts (Z.to_nat (Qfloor ((v - mn) / b))) (snd s)) as (a & Ha & La & Na).
        { rewrite L. assert (Q1: ((v - mn) / b < nb)%Q) by (apply Qlt_shift_div_r; [exact B|lra]).
          pose proof (Qfloor_le ((v - mn) / b)) as Q2. assert (Q3: (inject_Z (Qfloor ((v - mn) / b)) < nb)%Q) by lra.
          unfold nb in Q3. rewrite <- Zlt_Qlt in Q3. lia. }
        exists a. split; [exact Ha|]. split; [congruence|]. intros k K. rewrite Na, in_bin_iff by assumption. reflexivity. }
      destruct A as (a & Ha & La & Na). destruct (IH a La ltac:(intros x X; apply NM; right; exact X)) as (c & Hc & Lc & Nc).
      exists c. cbn [add_samples]. rewrite Ha. split; [exact Hc|]. split; [exact Lc|]. intros k K. rewrite Nc, Na by exact K.
      cbn [total fold_right]. unfold total. lia. }
  destruct (G l (repeat 0 (Pos.to_nat nbins)) (repeat_length _ _) NM) as (c & Hc & Lc & Nc).
  exists c. split; [exact Hc|]. split; [exact Lc|]. intros k K. rewrite Nc by exact K. rewrite nth_repeat. reflexivity.
Qed.
Print Assumptions C48_bins_partial.

(** A sample equal to the maximum, which the range check admits, is written past the
    last bin. *)
Theorem C48_max_refuted :
  exists mn mx nbins b, (mn < mx)%Q /\ bin_size mn mx nbins = Some b /\
    add_samples (fun v => v) mn mx b (repeat 0 (Pos.to_nat nbins)) [(mx, 1)] = None.
Proof. exists 0%Q, 40%Q, 20%positive. eexists. split; [reflexivity|]. split; [reflexivity|]. vm_compute. reflexivity. Qed.
Print Assumptions C48_max_refuted.

(** With integer values the bin size is rounded down, so that samples well inside the
    range are written past the last bin. *)
Theorem C48_integer_refuted :
  exists mn mx nbins v, mn <= v /\ v < mx /\ 0 < bin_size_int mn mx nbins /\
    add_samples_int mn mx (bin_size_int mn mx nbins) (repeat 0 nbins) [(v, 1)] = None.
Proof. exists 0, 39, 20, 25. split; [lia|]. split; [lia|]. split; [vm_compute; lia|]. reflexivity. Qed.
Print Assumptions C48_integer_refuted.

Theorem C48_integer_partial :
  forall mn mx nbins l, mn < mx -> 0 < nbins -> (mx - mn) mod nbins = 0 ->
  (forall s, In s l -> fst s <> mx) ->
  let b := bin_size_int mn mx nbins in
  exists counts, add_samples_int mn mx b (repeat 0 nbins) l = Some counts /\ length counts = nbins /\
    forall k, k < nbins ->
      nth k counts 0 = total (fun s => if (mn + k * b <=? fst s) && (fst s <? mn + (k + 1) * b) then snd s else 0) l.
Proof.
  intros mn mx nbins l W NB D NM b.
  assert (Eb: mx - mn = nbins * b). { unfold b, bin_size_int. pose proof (Nat.div_mod (mx - mn) nbins ltac:(lia)). lia. }
  assert (B: 0 < b) by nia.
  assert (G: forall l counts, length counts = nbins -> (forall s, In s l -> fst s <> mx) ->
    exists c, add_samples_int mn mx b counts l = Some c /\ length c = nbins /\
    forall k, k < nbins -> nth k c 0 = nth k counts 0 + total (fun s => if (mn + k * b <=? fst s) && (fst s <? mn + (k + 1) * b) then snd s else 0) l).
  { clear l NM. induction l as [|s l IH]; intros counts L NM.
    - exists counts. split; [reflexivity|]. split; [exact L|]. intros k K. simpl. lia.
    - assert (A: exists a, add_sample_int mn mx b counts s = Some a /\ length a = nbins /\
        forall k, k < nbins -> nth k a 0 = nth k counts 0 + if (mn + k * b <=? fst s) && (fst s <? mn + (k + 1) * b) then snd s else 0).
      { unfold add_sample_int. specialize (NM s (or_introl eq_refl)). set (v := fst s) in *.
        destruct (Nat.ltb_spec mx v) as [V1|V1].
        { exists counts. split; [reflexivity|]. split; [exact L|]. intros k K.
          assert (H: (k + 1) * b <= nbins * b) by (apply Nat.mul_le_mono_r; lia).
          assert ((v <? mn + (k + 1) * b) = false) as -> by (apply Nat.ltb_ge; lia). rewrite andb_false_r. lia. }
        destruct (Nat.ltb_spec v mn) as [V2|V2].
        { exists counts. split; [reflexivity|]. split; [exact L|]. intros k K.
          assert ((mn + k * b <=? v) = false) as -> by (apply Nat.leb_gt; lia). simpl. lia. }
        destruct (bump_ok counts ((v - mn) / b) (snd s)) as (a & Ha & La & Na).
        { rewrite L. apply Nat.div_lt_upper_bound; lia. }
        exists a. split; [exact Ha|]. split; [congruence|]. intros k K. rewrite Na. f_equal.
        destruct (div_bounds b B (v - mn)) as [D1 D2]. set (q := (v - mn) / b) in *.
        destruct (Nat.eqb_spec k q) as [->|N].
        - assert ((mn + q * b <=? v) = true) as -> by (apply Nat.leb_le; lia).
          assert ((v <? mn + (q + 1) * b) = true) as -> by (apply Nat.ltb_lt; lia). reflexivity.
        - destruct (Nat.leb_spec (mn + k * b) v); [|reflexivity]. destruct (Nat.ltb_spec v (mn + (k + 1) * b)); [|reflexivity].
          exfalso. apply N. destruct (Nat.lt_trichotomy k q) as [O|[O|O]]; [|exact O|].
          + assert ((k + 1) * b <= q * b) by (apply Nat.mul_le_mono_r; lia). lia.
          + assert ((q + 1) * b <= k * b) by (apply Nat.mul_le_mono_r; lia). lia. }
      destruct A as (a & Ha & La & Na). destruct (IH a La ltac:(intros x X; apply NM; right; exact X)) as (c & Hc & Lc & Nc).
      exists c. cbn [add_samples_int]. rewrite Ha. split; [exact Hc|]. split; [exact Lc|]. intros k K. rewrite Nc, Na by exact K.
      cbn [total fold_right]. unfold total. lia. }
  destruct (G l (repeat 0 nbins) (repeat_length _ _) NM) as (c & Hc & Lc & Nc).
  exists c. split; [exact Hc|]. split; [exact Lc|]. intros k K. rewrite Nc by exact K. rewrite nth_repeat. reflexivity.
Qed.
Print Assumptions C48_integer_partial.

Example C48_example : add_samples (fun v => v) 0 10 (5 # 2) (repeat 0 4) [(3%Q, 2); (9 # 2, 1); (11%Q, 7); (5%Q, 1); (-1 # 2, 5)] =
  Some [0; 3; 1; 0].
Proof. vm_compute. reflexivity. Qed.
