(** Global variables: the invariant. *)
From Coq Require Import List Arith Bool Lia Sorted.
From Verif Require Import GvModel GvSpec.
Import ListNotations.

(** *** Memory *)
Lemma write_at_spec o v b b' : write_at o v b = Some b' -> length b' = length b /\
  o + length v <= length b /\
  forall k, nth k b' None = if (o <=? k) && (k <? o + length v) then nth (k - o) v None else nth k b None.
Proof.
  unfold write_at. destruct (Nat.leb_spec (o + length v) (length b)) as [L|L]; [|discriminate].
  intros E. injection E as <-. split; [|split; [exact L|]].
  - rewrite !app_length, firstn_length, skipn_length. lia.
  - intros k. destruct (Nat.leb_spec o k) as [A|A]; cbn [andb].
    + rewrite app_nth2 by (rewrite firstn_length; lia). rewrite firstn_length, Nat.min_l by lia.
      destruct (Nat.ltb_spec k (o + length v)) as [B|B].
      * apply app_nth1. lia.
      * rewrite app_nth2 by lia. rewrite <- (firstn_skipn (o + length v) b) at 2.
        rewrite (app_nth2 (firstn _ _)) by (rewrite firstn_length; lia). rewrite firstn_length, Nat.min_l by lia.
        f_equal. lia.
    + rewrite app_nth1 by (rewrite firstn_length; lia).
      rewrite <- (firstn_skipn o b) at 2. symmetry. apply app_nth1. rewrite firstn_length; lia.
Qed.
Lemma write_at_fits o v b : o + length v <= length b -> exists b', write_at o v b = Some b'.
Proof. unfold write_at. destruct (Nat.leb_spec (o + length v) (length b)); [eauto|lia]. Qed.
Lemma call_spec : forall l s, (forall o v, In (o, v) l -> o + length v <= length s) ->
  exists s', call l s = Some s' /\ length s' = length s /\
  forall k, (exists o v, In (o, v) l /\ o <= k < o + length v /\ nth k s' None = nth (k - o) v None) \/
            ((forall o v, In (o, v) l -> ~ o <= k < o + length v) /\ nth k s' None = nth k s None).
Proof.
  induction l as [|[o v] l IH]; intros s F; cbn [call].
  - exists s. split; [reflexivity|]. split; [reflexivity|]. intros k. right. split; [intros ? ? []|reflexivity].
  - destruct (write_at_fits o v s) as [s1 E]; [apply F; now left|]. rewrite E.
    destruct (write_at_spec _ _ _ _ E) as (L1 & _ & N1).
    destruct (IH s1) as (s' & C & L & N); [intros o' v' H; rewrite L1; apply F; now right|].
    exists s'. split; [exact C|]. split; [lia|]. intros k. destruct (N k) as [(o' & v' & I & R & X)|[R X]].
    + left. exists o', v'. split; [now right|auto].
    + rewrite N1 in X. destruct (Nat.leb_spec o k) as [A|A], (Nat.ltb_spec k (o + length v)) as [B|B]; cbn [andb] in X.
      * left. exists o, v. split; [now left|]. split; [lia|exact X].
      * right. split; [|exact X]. intros o' v' [H|H]; [injection H as <- <-; lia|auto].
      * right. split; [|exact X]. intros o' v' [H|H]; [injection H as <- <-; lia|auto].
      * right. split; [|exact X]. intros o' v' [H|H]; [injection H as <- <-; lia|auto].
Qed.
Lemma grow_spec need : forall fuel a, 0 < a -> need <= a + fuel ->
  exists a', grow fuel need a = Some a' /\ a <= a' /\ need <= a' /\ (need <= a -> a' = a).
Proof.
  induction fuel as [|f IH]; intros a Z H; cbn [grow]; destruct (Nat.ltb_spec a need) as [L|L]; [lia|eauto| |eauto].
  destruct (IH (a * 2)) as (a' & E & A & B & C); [lia|lia|]. exists a'. split; [exact E|]. lia.
Qed.
Lemma round4_spec n : n <= round4 n /\ round4 n mod 4 = 0.
Proof.
  unfold round4. pose proof (Nat.div_mod n 4 ltac:(lia)) as D. pose proof (Nat.mod_upper_bound n 4 ltac:(lia)).
  destruct (Nat.eqb_spec (n mod 4) 0) as [E|E]; [lia|]. split; [lia|].
  replace (n + (4 - n mod 4)) with ((n / 4 + 1) * 4) by lia. apply Nat.mod_mul. lia.
Qed.
(** *** Init functions are kept in the order of the offsets *)
Lemma put_spec o v : forall l, StronglySorted lt (map fst l) ->
  StronglySorted lt (map fst (put o v l)) /\
  forall y, In y (put o v l) <-> y = (o, v) \/ (In y l /\ fst y <> o).
Proof.
  induction l as [|[o' v'] l IH]; intros H; cbn [put].
  - split; [repeat constructor|]. intros y. simpl. intuition.
  - simpl in H. inversion H as [|? ? H1 H2]; subst. rewrite Forall_forall in H2.
    assert (TL : forall y, In y l -> o' < fst y) by (intros y Y; apply H2, in_map, Y).
    destruct (Nat.ltb_spec o o') as [A|A]; [|destruct (Nat.ltb_spec o' o) as [B|B]].
    + split.
      * simpl. constructor; [exact H|]. constructor; [exact A|]. apply Forall_forall. intros x X. specialize (H2 x X). lia.
      * intros y. cbn [In]. split.
        -- intros [<-|[<-|Y]]; [now left|right; split; [now left|simpl; lia]|right; split; [now right|]]. specialize (TL _ Y). lia.
        -- intros [->|[Y _]]; auto.
    + destruct (IH H1) as [I1 I2]. split.
      * simpl. constructor; [exact I1|]. apply Forall_forall. intros x X. apply in_map_iff in X as (y & <- & Y).
        apply I2 in Y as [->|[Y _]]; [exact B|auto].
      * intros y. cbn [In]. rewrite I2. split.
        -- intros [<-|[->|[Y N0]]]; [right; split; [now left|simpl; lia]|now left|right; split; [now right|exact N0]].
        -- intros [->|[[<-|Y] N0]]; auto.
    + assert (o = o') by lia. subst o'. split.
      * simpl. constructor; [exact H1|]. apply Forall_forall. exact H2.
      * intros y. cbn [In]. split.
        -- intros [<-|Y]; [now left|right; split; [now right|]]. specialize (TL _ Y). lia.
        -- intros [->|[[<-|Y] N0]]; [now left|simpl in N0; lia|now right].
Qed.
Lemma sorted_filter (f : nat * mem -> bool) l : StronglySorted lt (map fst l) -> StronglySorted lt (map fst (filter f l)).
Proof.
  induction l as [|a l IH]; simpl; intros H; auto. inversion H; subst. destruct (f a); simpl; auto.
  constructor; auto. apply Forall_forall. intros x Hx. apply in_map_iff in Hx as (y & <- & Hy).
  apply filter_In in Hy as [Hy _]. rewrite Forall_forall in H3. apply H3. now apply in_map.
Qed.

(** *** Slots: for every history *)
Definition o_of (c : ctx) (x : nat) : nat := fst (nth x (vars c) (0, 0)).
Definition n_of (c : ctx) (x : nat) : nat := snd (nth x (vars c) (0, 0)).
Record slots (c : ctx) : Prop := {
  s_end : forall x, x < length (vars c) -> o_of c x + n_of c x <= off c;
  s_sep : forall x y, x < y < length (vars c) -> o_of c x + n_of c x <= o_of c y;
  s_four : off c mod 4 = 0 /\ forall x, x < length (vars c) -> o_of c x mod 4 = 0;
  s_sorted : StronglySorted lt (map fst (fns c)) }.
Lemma slots0 a : slots (ctx0 a).
Proof. split; simpl; try lia; [|constructor]. split; [reflexivity|intros x X; lia]. Qed.
Lemma slots_same c c' : off c' = off c -> vars c' = vars c -> fns c' = fns c -> slots c -> slots c'.
Proof. intros A B C [S1 S2 S3 S4]. split; unfold o_of, n_of in *; rewrite ?A, ?B, ?C; auto. Qed.
Lemma slots_step o c c' : slots c -> step o c = Ok c' -> slots c'.
Proof.
  intros S E. destruct o as [n v|x|p g|p x i w|x v|p|p]; cbn [step] in E.
  - unfold declare in E. destruct (grow _ _ _) as [a|]; [|discriminate].
    destruct ((alloc c <? round4 n + off c) && negb (length (active c) =? 0)); [discriminate|].
    assert (G : exists b, c' = mkctx (off c + round4 n) a b (match v with Some w => put (off c) w (fns c) | None => fns c end)
      (active c) (vars c ++ [(off c, n)]) (segs c)).
    { destruct (buf c) as [b|]; [destruct (alloc c <? round4 n + off c); [destruct (length b <? off c); [discriminate|]|]|];
        injection E as <-; eauto. }
    destruct G as [b ->]. destruct (round4_spec n) as [R1 R2]. destruct S as [S1 S2 [S3 S3'] S4].
    unfold o_of, n_of in *. split; unfold o_of, n_of; cbn [vars off fns].
    + intros x X. rewrite app_length in X. simpl in X. destruct (Nat.lt_ge_cases x (length (vars c))) as [L|L].
      * rewrite app_nth1 by auto. specialize (S1 x L). lia.
      * rewrite app_nth2 by auto. replace (x - length (vars c)) with 0 by lia. simpl. lia.
    + intros x y [X Y]. rewrite app_length in Y. simpl in Y. destruct (Nat.lt_ge_cases y (length (vars c))) as [L|L].
      * rewrite !app_nth1 by lia. apply S2. lia.
      * rewrite (app_nth1 _ _ _ (n := x)) by lia. rewrite (app_nth2 _ _ _ (n := y)) by lia.
        replace (y - length (vars c)) with 0 by lia. simpl. apply S1. lia.
    + split; [rewrite Nat.add_mod, S3, R2 by lia; reflexivity|].
      intros x X. rewrite app_length in X. simpl in X. destruct (Nat.lt_ge_cases x (length (vars c))) as [L|L].
      * rewrite app_nth1 by auto. auto.
      * rewrite app_nth2 by auto. replace (x - length (vars c)) with 0 by lia. simpl. exact S3.
    + destruct v as [w|]; [|exact S4]. apply put_spec, S4.
  - injection E as <-. destruct S as [S1 S2 S3 S4]. split; auto. cbn [fns]. now apply sorted_filter.
  - unfold start in E. destruct (_ =? 0); [injection E as <-; eapply slots_same; [..|exact S]; reflexivity|].
    destruct (_ <? off c); [discriminate|]. destruct (write_at _ _ _); [|discriminate].
    destruct (call _ _); [|discriminate]. injection E as <-. eapply slots_same; [..|exact S]; reflexivity.
  - unfold store in E. destruct (seg _ _); [|discriminate]. destruct (write_at _ _ _); [|discriminate].
    injection E as <-. eapply slots_same; [..|exact S]; reflexivity.
  - unfold init_space in E. destruct (into_all _ _ _ _); [|discriminate]. destruct (buf c); [|discriminate].
    destruct (write_at _ _ _); [|discriminate]. injection E as <-. eapply slots_same; [..|exact S]; reflexivity.
  - injection E as <-. eapply slots_same; [..|exact S]; reflexivity.
  - injection E as <-. eapply slots_same; [..|exact S]; reflexivity.
Qed.
Lemma slots_run : forall l c c', slots c -> run l c = Ok c' -> slots c'.
Proof.
  induction l as [|o l IH]; intros c c' S E; cbn [run] in E; [now injection E as <-|].
  destruct (step o c) as [c1| | |] eqn:T; try discriminate. eapply IH; [|exact E]. eapply slots_step; eauto.
Qed.

(** *** Segments *)
Lemma seg_set p s q : forall l, seg q (set_seg p s l) = if q =? p then match seg p l with Some _ => Some s | None => None end else seg q l.
Proof.
  induction l as [|[r t] l IH]; cbn [set_seg seg]; [destruct (q =? p); reflexivity|].
  destruct (Nat.eqb_spec p r) as [->|N0]; cbn [seg].
  - destruct (Nat.eqb_spec q r); reflexivity.
  - destruct (Nat.eqb_spec q r) as [->|N1].
    + destruct (Nat.eqb_spec r p); [congruence|reflexivity].
    + rewrite IH. reflexivity.
Qed.
Lemma set_seg_fst p s : forall l, map fst (set_seg p s l) = map fst l.
Proof. induction l as [|[q t] l IH]; cbn [set_seg map]; auto. destruct (p =? q); simpl; [auto|now rewrite IH]. Qed.
Lemma seg_in p : forall l, In p (map fst l) <-> exists s, seg p l = Some s.
Proof.
  induction l as [|[q t] l IH]; simpl; [split; [tauto|intros [s X]; discriminate]|].
  destruct (Nat.eqb_spec p q) as [->|N0]; [split; eauto|]. rewrite <- IH. split; [intros [X|X]; [congruence|auto]|auto].
Qed.
Lemma seg_without p q : forall l, seg q (without p l) = if q =? p then None else seg q l.
Proof.
  induction l as [|[r t] l IH]; simpl; [now destruct (q =? p)|].
  destruct (Nat.eqb_spec r p) as [->|N0]; cbn [negb].
  - rewrite IH. destruct (Nat.eqb_spec q p); auto.
  - cbn [seg]. rewrite IH. destruct (Nat.eqb_spec q r) as [->|N1]; auto. destruct (Nat.eqb_spec r p); [congruence|auto].
Qed.
Lemma without_fst p : forall l, map fst (without p l) = filter (fun q => negb (q =? p)) (map fst l).
Proof. induction l as [|[r t] l IH]; simpl; auto. destruct (r =? p); simpl; [auto|now rewrite IH]. Qed.
Lemma into_all_spec o v : forall ps l, NoDup ps -> (forall p, In p ps -> exists s, seg p l = Some s /\ o + length v <= length s) ->
  exists l', into_all ps o v l = Some l' /\ map fst l' = map fst l /\
    forall q, if existsb (Nat.eqb q) ps
              then exists s s', seg q l = Some s /\ write_at o v s = Some s' /\ seg q l' = Some s'
              else seg q l' = seg q l.
Proof.
  induction ps as [|p ps IH]; intros l ND H; cbn [into_all].
  - exists l. split; [reflexivity|]. split; [reflexivity|]. intros q. reflexivity.
  - inversion ND as [|? ? NI ND']; subst. destruct (H p) as (s & E & F); [now left|]. rewrite E.
    destruct (write_at_fits o v s F) as [s' W]. rewrite W.
    destruct (IH (set_seg p s' l)) as (l' & R & M & Q); [exact ND'| |].
    { intros q I. rewrite seg_set. destruct (Nat.eqb_spec q p) as [->|N0]; [contradiction|]. apply H. now right. }
    exists l'. split; [exact R|]. split; [now rewrite M, set_seg_fst|]. intros q. cbn [existsb].
    specialize (Q q). rewrite !seg_set in Q. destruct (Nat.eqb_spec q p) as [EQ|N0]; [subst q|]; cbn [orb].
    + assert (X : existsb (Nat.eqb p) ps = false).
      { destruct (existsb (Nat.eqb p) ps) eqn:X; auto. apply existsb_exists in X as (r & R1 & R2).
        apply Nat.eqb_eq in R2. subst. contradiction. }
      rewrite X, E in Q. eauto.
    + exact Q.
Qed.

(** *** Every process has its own copy *)
Record inv (c : ctx) (a : own) : Prop := {
  i_slots : slots c;
  i_sizes : map snd (vars c) = sizes a;
  i_pos : 0 < alloc c /\ off c <= alloc c /\ forall x, x < length (vars c) -> 0 < n_of c x;
  i_buf : match buf c with
          | None => vars c = [] /\ off c = 0
          | Some b => length b = alloc c /\
              (forall x i, x < length (vars c) -> i < n_of c x -> nth (o_of c x + i) b None = preset a x i) /\
              (forall k, off c <= k -> nth k b None = None)
          end;
  i_fns : forall o v, In (o, v) (fns c) <-> exists x, x < length (vars c) /\ o_of c x = o /\ given a x = Some v;
  i_fit : forall x v, x < length (vars c) -> given a x = Some v -> length v <= n_of c x;
  i_alive : active c = alive a /\ map fst (segs c) = alive a /\ NoDup (alive a);
  i_segs : forall p s, seg p (segs c) = Some s -> length s = alloc c /\
              (forall x i, x < length (vars c) -> i < n_of c x -> nth (o_of c x + i) s None = value a p x i) /\
              (forall k, off c <= k -> nth k s None = None) }.
Lemma inv0 a : 0 < a -> inv (ctx0 a) own0.
Proof.
  intros Z. split; simpl; auto.
  - apply slots0.
  - split; [exact Z|]. split; [lia|]. intros x X; lia.
  - intros o v. split; [tauto|]. intros (x & X & _). lia.
  - intros x v X. lia.
  - repeat split; constructor.
  - intros p s X. discriminate.
Qed.
(** A byte belongs to one variable. *)
Lemma one_slot c x i y j : slots c -> x < length (vars c) -> y < length (vars c) -> i < n_of c x -> j < n_of c y ->
  o_of c x + i = o_of c y + j -> x = y /\ i = j.
Proof.
  intros S X Y I J E. assert (x = y \/ x < y \/ y < x) as [->|[L|L]] by lia; [lia| |].
  - pose proof (s_sep c S x y ltac:(lia)). lia.
  - pose proof (s_sep c S y x ltac:(lia)). lia.
Qed.
Lemma sizes_nth c a x : map snd (vars c) = sizes a -> x < length (vars c) -> n_of c x = nth x (sizes a) 0.
Proof. intros E X. unfold n_of. rewrite <- E. symmetry. apply (map_nth snd (vars c) (0, 0) x). Qed.
Lemma sizes_len c a : map snd (vars c) = sizes a -> length (sizes a) = length (vars c).
Proof. intros E. rewrite <- E. apply map_length. Qed.
Lemma write_slot c x i v s s' (f : nat -> nat -> option nat) : slots c -> x < length (vars c) ->
  i + length v <= n_of c x -> write_at (o_of c x + i) v s = Some s' ->
  (forall y j, y < length (vars c) -> j < n_of c y -> nth (o_of c y + j) s None = f y j) ->
  (forall k, off c <= k -> nth k s None = None) ->
  (forall y j, y < length (vars c) -> j < n_of c y -> nth (o_of c y + j) s' None =
     if (y =? x) && ((i <=? j) && (j <? i + length v)) then nth (j - i) v None else f y j) /\
  (forall k, off c <= k -> nth k s' None = None).
Proof.
  intros S X L W F K. destruct (write_at_spec _ _ _ _ W) as (_ & _ & N0). split.
  - intros y j Y J. rewrite N0. destruct (Nat.eqb_spec y x) as [->|NE]; cbn [andb].
    + destruct (Nat.leb_spec (o_of c x + i) (o_of c x + j)), (Nat.ltb_spec (o_of c x + j) (o_of c x + i + length v)),
        (Nat.leb_spec i j), (Nat.ltb_spec j (i + length v)); cbn [andb]; try lia; try (now apply F).
      f_equal. lia.
    + destruct (Nat.leb_spec (o_of c x + i) (o_of c y + j)) as [A|A], (Nat.ltb_spec (o_of c y + j) (o_of c x + i + length v)) as [B|B];
        cbn [andb]; try (now apply F).
      exfalso. apply NE. eapply (one_slot c y j x (o_of c y + j - o_of c x)); eauto; lia.
  - intros k Hk. rewrite N0. pose proof (s_end c S x X).
    destruct (Nat.leb_spec (o_of c x + i) k), (Nat.ltb_spec k (o_of c x + i + length v)); cbn [andb]; try lia; auto.
Qed.
Lemma upd_same {A} (f : nat -> A) x v : upd f x v x = v.
Proof. unfold upd. now rewrite Nat.eqb_refl. Qed.
Lemma upd_other {A} (f : nat -> A) x v y : y <> x -> upd f x v y = f y.
Proof. unfold upd. intros N0. destruct (Nat.eqb_spec y x); [contradiction|auto]. Qed.

Definition done (r : res) (a : own) : Prop := match r with Ok c => inv c a | Abort => True | _ => False end.

Lemma declare_inv n v c a : inv c a -> 0 < n -> (forall w, v = Some w -> length w <= n) ->
  done (declare n v c) (ostep (Declare n v) a).
Proof.
  intros V Z Hv. pose proof V as [S I1 (I2 & I2' & I2'') I3 I4 I5 (I6 & I6' & I6'') I7].
  destruct (round4_spec n) as [R1 R2].
  assert (ST : forall c', step (Declare n v) c = Ok c' -> slots c') by (intros c'; apply slots_step, S).
  cbn [step] in ST. unfold declare in *.
  destruct (grow_spec (round4 n + off c) (Datatypes.S (round4 n + off c)) (alloc c) I2 ltac:(lia)) as (al & G & A1 & A2 & A3).
  rewrite G in *.
  set (f := match v with Some w => put (off c) w (fns c) | None => fns c end) in *.
  match goal with |- done ?r _ => set (R := r) in * end.
  assert (RE : R = Abort \/ exists b', length b' = al /\
      (forall x i, x < length (vars c) -> i < n_of c x -> nth (o_of c x + i) b' None = preset a x i) /\
      (forall k, off c <= k -> nth k b' None = None) /\ (segs c = [] \/ al = alloc c) /\
      R = Ok (mkctx (off c + round4 n) al (Some b') f (active c) (vars c ++ [(off c, n)]) (segs c))).
  { unfold R. clear ST R. destruct (Nat.ltb_spec (alloc c) (round4 n + off c)) as [RE|RE]; cbn [andb].
    - destruct (Nat.eqb_spec (length (active c)) 0) as [AC|AC]; cbn [negb]; [|now left]. right.
      assert (NS : segs c = []).
      { destruct (active c) eqn:X; [|simpl in AC; lia]. rewrite <- I6 in I6'. destruct (segs c); [auto|discriminate]. }
      destruct (buf c) as [b|].
      + destruct I3 as (B1 & B2 & B3). destruct (Nat.ltb_spec (length b) (off c)); [lia|].
        exists (firstn (off c) b ++ repeat None (al - off c)). split; [|split; [|split; [|split; [now left|reflexivity]]]].
        * rewrite app_length, firstn_length, repeat_length. lia.
        * intros x i X Hi. pose proof (s_end c S x X). rewrite app_nth1 by (rewrite firstn_length; lia).
          rewrite <- (B2 x i X Hi). rewrite <- (firstn_skipn (off c) b) at 2. symmetry. apply app_nth1. rewrite firstn_length; lia.
        * intros k K. rewrite app_nth2 by (rewrite firstn_length; lia). apply nth_repeat.
      + destruct I3 as [B1 B2]. exists (repeat None al). split; [apply repeat_length|]. split; [|split; [|split; [now left|reflexivity]]].
        * intros x i X. rewrite B1 in X. simpl in X. lia.
        * intros k K. apply nth_repeat.
    - right. specialize (A3 RE). destruct (buf c) as [b|].
      + destruct I3 as (B1 & B2 & B3). exists b. split; [lia|]. split; [exact B2|]. split; [exact B3|]. split; [now right|reflexivity].
      + destruct I3 as [B1 B2]. exists (repeat None al). split; [apply repeat_length|]. split; [|split; [|split; [now right|reflexivity]]].
        * intros x i X. rewrite B1 in X. simpl in X. lia.
        * intros k K. apply nth_repeat. }
  destruct RE as [->|RE]; [exact I|].
    destruct RE as (b' & B1 & B2 & B3 & SG & EQ). rewrite EQ in *. specialize (ST _ eq_refl). cbn [done]. clear R EQ.
    pose proof (sizes_len c a I1) as LN.
    split; cbn [off alloc buf fns active vars segs ostep sizes given preset alive value]; auto.
    + rewrite map_app, I1. reflexivity.
    + split; [lia|]. split; [lia|]. unfold n_of. cbn [vars]. intros x X. rewrite app_length in X. simpl in X.
      destruct (Nat.lt_ge_cases x (length (vars c))) as [L|L]; [rewrite app_nth1 by auto; now apply I2''|].
      rewrite app_nth2 by auto. replace (x - length (vars c)) with 0 by lia. exact Z.
    + split; [exact B1|]. split.
      * intros x i X Hi. rewrite app_length in X. simpl in X. unfold o_of, n_of in *. cbn [vars] in *.
        destruct (Nat.lt_ge_cases x (length (vars c))) as [L|L].
        -- rewrite app_nth1 in * by auto. rewrite upd_other by lia. auto.
        -- rewrite app_nth2 in * by auto. replace (x - length (vars c)) with 0 in * by lia. simpl in *.
           replace x with (length (sizes a)) by lia. rewrite upd_same. apply B3. lia.
      * intros k K. apply B3. lia.
    + intros o w. assert (OLD : In (o, w) (fns c) <-> exists x, x < length (vars c ++ [(off c, n)]) /\
        o_of (mkctx (off c + round4 n) al (Some b') (fns c) (active c) (vars c ++ [(off c, n)]) (segs c)) x = o /\ x < length (vars c) /\ given a x = Some w).
      { rewrite I4. unfold o_of. cbn [vars]. split; intros (x & X & Y & Q).
        - exists x. rewrite app_length. rewrite app_nth1 by auto. split; [lia|]. auto.
        - destruct Q as [Q1 Q2]. exists x. rewrite app_nth1 in Y by auto. auto. }
      assert (NO : forall w', ~ In (off c, w') (fns c)).
      { intros w' H. apply I4 in H as (x & X & Y & _). pose proof (s_end c S x X). specialize (I2'' x X). lia. }
      unfold o_of in *. cbn [vars] in *. unfold f. destruct v as [w0|].
      * rewrite (proj2 (put_spec (off c) w0 (fns c) (s_sorted c S)) (o, w)). split.
        -- intros [E|[E _]].
           ++ injection E as -> ->. exists (length (vars c)). rewrite app_length. split; [simpl; lia|].
              rewrite app_nth2 by auto. rewrite Nat.sub_diag. split; [reflexivity|]. rewrite <- LN. apply upd_same.
           ++ apply OLD in E as (x & X & Y & Q1 & Q2). exists x. rewrite upd_other by lia. auto.
        -- intros (x & X & Y & Q). rewrite app_length in X. simpl in X.
           destruct (Nat.eq_dec x (length (sizes a))) as [->|NE].
           ++ rewrite upd_same in Q. injection Q as ->. rewrite LN, app_nth2, Nat.sub_diag in Y by auto. simpl in Y. left. congruence.
           ++ rewrite upd_other in Q by auto. right. split.
              ** apply OLD. exists x. rewrite app_length. simpl. split; [lia|]. split; [auto|]. split; [lia|auto].
              ** simpl. intros ->. apply (NO w). apply OLD. exists x. rewrite app_length. simpl. split; [lia|]. split; [auto|]. split; [lia|auto].
      * rewrite OLD. split; intros (x & X & Y & Q).
        -- exists x. destruct Q as [Q1 Q2]. rewrite upd_other by lia. auto.
        -- exists x. rewrite app_length in X. simpl in X. destruct (Nat.eq_dec x (length (sizes a))) as [->|NE];
             [rewrite upd_same in Q; discriminate|]. rewrite upd_other in Q by auto. rewrite app_length. simpl. split; [lia|]. split; [auto|]. split; [lia|auto].
    + intros x w X Q. rewrite app_length in X. simpl in X. unfold n_of. cbn [vars].
      destruct (Nat.eq_dec x (length (sizes a))) as [->|NE].
      * rewrite upd_same in Q. rewrite LN, app_nth2, Nat.sub_diag by auto. simpl. auto.
      * rewrite upd_other in Q by auto. rewrite app_nth1 by lia. apply I5; [lia|auto].
    + intros p s E. destruct SG as [SG|SG]; [rewrite SG in E; discriminate|].
      destruct (I7 p s E) as (T1 & T2 & T3). split; [lia|]. split.
      * intros x i X Hi. rewrite app_length in X. simpl in X. unfold o_of, n_of in *. cbn [vars] in *.
        destruct (Nat.lt_ge_cases x (length (vars c))) as [L|L].
        -- rewrite app_nth1 in * by auto. rewrite upd_other by lia. auto.
        -- rewrite app_nth2 in * by auto. replace (x - length (vars c)) with 0 in * by lia. simpl in *.
           replace x with (length (sizes a)) by lia. rewrite upd_same. apply T3. lia.
      * intros k K. apply T3. lia.
Qed.

Lemma undeclare_inv x c a : inv c a -> x < length (sizes a) -> done (undeclare x c) (ostep (Undeclare x) a).
Proof.
  intros V X. pose proof V as [S I1 I2 I3 I4 I5 I6 I7]. rewrite (sizes_len c a I1) in X.
  assert (ST : slots (mkctx (off c) (alloc c) (buf c) (filter (fun y => negb (fst y =? fst (nth x (vars c) (0, 0)))) (fns c)) (active c) (vars c) (segs c)))
    by (eapply (slots_step (Undeclare x)); [exact S|reflexivity]).
  unfold undeclare. cbn [done]. split; cbn [off alloc buf fns active vars segs ostep sizes given preset alive value]; auto.
  - intros o v. rewrite filter_In, I4. cbn [fst]. fold (o_of c x). split.
    + intros [(y & Y & Q & G) N0]. exists y. split; [exact Y|]. split; [exact Q|]. rewrite upd_other; auto.
      intros ->. rewrite Q, Nat.eqb_refl in N0. discriminate.
    + intros (y & Y & Q & G). destruct (Nat.eq_dec y x) as [->|NE]; [rewrite upd_same in G; discriminate|].
      rewrite upd_other in G by auto. split; [exists y; auto|]. destruct (Nat.eqb_spec o (o_of c x)) as [EQ|]; auto.
      exfalso. apply NE. destruct I2 as (_ & _ & I2). eapply (one_slot c y 0 x 0); eauto. unfold o_of in *. cbn [vars] in *. lia.
  - intros y v Y G. destruct (Nat.eq_dec y x) as [->|NE]; [rewrite upd_same in G; discriminate|].
    rewrite upd_other in G by auto. unfold n_of in *. cbn [vars]. auto.
Qed.
Lemma start_inv p c a : inv c a -> ~ In p (alive a) -> done (start p None c) (ostep (Start p None) a).
Proof.
  intros V NP. pose proof V as [S I1 (I2 & I2' & I2'') I3 I4 I5 (I6 & I6' & I6'') I7]. unfold start.
  destruct (Nat.eqb_spec (alloc c) 0) as [Z|Z]; [lia|].
  set (b := match buf c with Some b => b | None => [] end).
  assert (B : off c <= length b /\
    (forall x i, x < length (vars c) -> i < n_of c x -> nth (o_of c x + i) b None = preset a x i) /\
    (forall k, off c <= k -> nth k b None = None)).
  { unfold b. destruct (buf c) as [b'|]; [destruct I3 as (B1 & B2 & B3); split; [lia|auto]|].
    destruct I3 as [B1 B2]. rewrite B1. simpl. split; [lia|]. split; [intros; lia|intros [|k]; reflexivity]. }
  destruct B as (B1 & B2 & B3). destruct (Nat.ltb_spec (length b) (off c)) as [L|_]; [lia|].
  destruct (write_at_fits 0 (firstn (off c) b) (repeat None (alloc c))) as [s W];
    [rewrite firstn_length, repeat_length; lia|]. rewrite W.
  destruct (write_at_spec _ _ _ _ W) as (L1 & _ & N1). rewrite repeat_length in L1.
  assert (NB : forall k, nth k s None = nth k b None).
  { intros k. rewrite N1. rewrite firstn_length, Nat.min_l by lia. cbn [Nat.leb andb]. rewrite Nat.add_0_l.
    destruct (Nat.ltb_spec k (off c)) as [K|K].
    - rewrite Nat.sub_0_r. rewrite <- (firstn_skipn (off c) b) at 2. symmetry. apply app_nth1. rewrite firstn_length; lia.
    - rewrite nth_repeat, B3; auto. }
  destruct (call_spec (fns c) s) as (s' & C & L2 & N2).
  { intros o v H. apply I4 in H as (x & X & <- & G). pose proof (s_end c S x X). specialize (I5 x v X G). lia. }
  rewrite C. cbn [done].
  split; cbn [off alloc buf fns active vars segs ostep sizes given preset alive value]; auto.
  - eapply slots_same; [..|exact S]; reflexivity.
  - simpl. split; [now rewrite I6|]. split; [now rewrite I6'|]. constructor; auto.
  - intros q t. cbn [seg]. destruct (Nat.eqb_spec q p) as [->|NE].
    + intros E. injection E as <-. split; [lia|]. rewrite upd_same. split.
      * intros x i X Hi. destruct (N2 (o_of c x + i)) as [(o & v & IN & R & EQ)|[NO EQ]].
        -- change (nth (o_of c x + i) s' None = (match given a x with Some v => over v (preset a x) | None => preset a x end) i).
           rewrite EQ. apply I4 in IN as (y & Y & <- & G). pose proof (I5 y v Y G) as FI.
           destruct (one_slot c x i y (o_of c x + i - o_of c y) S X Y Hi) as [-> IJ]; [lia|lia|].
           rewrite G. unfold over. destruct (Nat.ltb_spec i (length v)); [|lia]. f_equal. lia.
        -- change (nth (o_of c x + i) s' None = (match given a x with Some v => over v (preset a x) | None => preset a x end) i).
           rewrite EQ, NB. rewrite (B2 x i X Hi). destruct (given a x) as [v|] eqn:G; auto.
           unfold over. destruct (Nat.ltb_spec i (length v)) as [LI|]; auto. exfalso.
           apply (NO (o_of c x) v); [apply I4; eauto|lia].
      * intros k K. destruct (N2 k) as [(o & v & IN & R & EQ)|[NO EQ]].
        -- exfalso. apply I4 in IN as (y & Y & <- & G). pose proof (I5 y v Y G). pose proof (s_end c S y Y). lia.
        -- rewrite EQ, NB. auto.
    + intros E. rewrite upd_other by auto. apply I7, E.
Qed.
Lemma store_inv p x i w c a : inv c a -> In p (alive a) -> x < length (sizes a) -> i < nth x (sizes a) 0 ->
  done (store p x i w c) (ostep (Store p x i w) a).
Proof.
  intros V P X Hi. pose proof V as [S I1 (I2 & I2' & I2'') I3 I4 I5 (I6 & I6' & I6'') I7].
  rewrite (sizes_len c a I1) in X. rewrite <- (sizes_nth c a x I1 X) in Hi.
  rewrite <- I6' in P. apply seg_in in P as [s P]. unfold store. rewrite P. fold (o_of c x).
  destruct (I7 p s P) as (T1 & T2 & T3). pose proof (s_end c S x X) as SE.
  destruct (write_at_fits (o_of c x + i) [Some w] s) as [s' W]; [simpl; lia|]. rewrite W.
  destruct (write_at_spec _ _ _ _ W) as (L1 & _ & _).
  assert (LV : i + length [Some w] <= n_of c x) by (simpl; lia).
  destruct (write_slot c x i [Some w] s s' (value a p) S X LV W T2 T3) as [U1 U2]. cbn [done].
  split; cbn [off alloc buf fns active vars segs ostep sizes given preset alive value]; auto.
  - eapply slots_same; [..|exact S]; reflexivity.
  - rewrite set_seg_fst. auto.
  - intros q t. rewrite seg_set, P. destruct (Nat.eqb_spec q p) as [->|NE].
    + intros E. injection E as <-. split; [lia|]. rewrite upd_same. split; [|exact U2].
      intros y j Y J. change (nth (o_of c y + j) s' None = upd (value a p) x (upd (value a p x) i (Some w)) y j).
      rewrite (U1 y j Y J). simpl length. unfold upd.
      destruct (Nat.eqb_spec y x) as [->|NE]; cbn [andb]; auto.
      destruct (Nat.leb_spec i j), (Nat.ltb_spec j (i + 1)), (Nat.eqb_spec j i); cbn [andb]; try lia; auto.
      subst. rewrite Nat.sub_diag. reflexivity.
    + intros E. rewrite upd_other by auto. apply I7, E.
Qed.
Lemma over_spec v f j : (if (0 <=? j) && (j <? 0 + length v) then nth (j - 0) v None else f j) = over v f j.
Proof. unfold over. cbn [Nat.leb andb]. rewrite Nat.add_0_l, Nat.sub_0_r. reflexivity. Qed.
Lemma init_space_inv x v c a : inv c a -> x < length (sizes a) -> length v <= nth x (sizes a) 0 ->
  done (init_space x v c) (ostep (InitSpace x v) a).
Proof.
  intros V X Hv. pose proof V as [S I1 (I2 & I2' & I2'') I3 I4 I5 (I6 & I6' & I6'') I7].
  rewrite (sizes_len c a I1) in X. rewrite <- (sizes_nth c a x I1 X) in Hv. pose proof (s_end c S x X) as SE.
  unfold init_space. fold (o_of c x).
  destruct (into_all_spec (o_of c x) v (active c) (segs c)) as (l' & R & M & Q).
  { now rewrite I6. }
  { intros p P. rewrite I6, <- I6' in P. apply seg_in in P as [s P]. exists s. split; auto. destruct (I7 p s P). lia. }
  rewrite R. destruct (buf c) as [b|] eqn:BB; [|destruct I3 as [E _]; rewrite E in X; simpl in X; lia].
  destruct I3 as (B1 & B2 & B3). destruct (write_at_fits (o_of c x) v b) as [b' W]; [lia|]. rewrite W.
  destruct (write_at_spec _ _ _ _ W) as (L1 & _ & _).
  assert (LV : 0 + length v <= n_of c x) by lia.
  assert (WR : forall s s' f, write_at (o_of c x) v s = Some s' ->
    (forall y j, y < length (vars c) -> j < n_of c y -> nth (o_of c y + j) s None = f y j) ->
    (forall k, off c <= k -> nth k s None = None) ->
    (forall y j, y < length (vars c) -> j < n_of c y -> nth (o_of c y + j) s' None = upd f x (over v (f x)) y j) /\
    (forall k, off c <= k -> nth k s' None = None)).
  { intros s s' f W' F K. rewrite <- (Nat.add_0_r (o_of c x)) in W'.
    destruct (write_slot c x 0 v s s' f S X LV W' F K) as [U1 U2]. split; [|exact U2].
    intros y j Y J. rewrite (U1 y j Y J). unfold upd. destruct (Nat.eqb_spec y x) as [->|NE]; cbn [andb]; auto.
    apply over_spec. }
  cbn [done]. split; cbn [off alloc buf fns active vars segs ostep sizes given preset alive value]; auto.
  - eapply slots_same; [..|exact S]; reflexivity.
  - destruct (WR b b' (preset a) W B2 B3) as [U1 U2]. split; [lia|]. split; [exact U1|exact U2].
  - rewrite M. auto.
  - intros q t E. specialize (Q q). rewrite <- I6. destruct (existsb (Nat.eqb q) (active c)).
    + destruct Q as (s & s' & E1 & W1 & E2). assert (t = s') by congruence. subst t.
      destruct (I7 q s E1) as (T1 & T2 & T3). destruct (WR s s' (value a q) W1 T2 T3) as [U1 U2].
      destruct (write_at_spec _ _ _ _ W1) as (LL & _ & _). split; [lia|]. split; [exact U1|exact U2].
    + rewrite Q in E. apply I7, E.
Qed.
Lemma finish_inv p c a : inv c a -> done (finish p c) (ostep (Finish p) a).
Proof.
  intros V. pose proof V as [S I1 I2 I3 I4 I5 (I6 & I6' & I6'') I7]. unfold finish. cbn [done].
  split; cbn [off alloc buf fns active vars segs ostep sizes given preset alive value]; auto.
  - eapply slots_same; [..|exact S]; reflexivity.
  - rewrite without_fst, I6', I6. split; [reflexivity|]. split; [reflexivity|]. now apply NoDup_filter.
  - intros q t. rewrite seg_without. destruct (q =? p); [discriminate|]. apply I7.
Qed.
Lemma step_inv o c a : inv c a -> plain o -> may o a -> done (step o c) (ostep o a).
Proof.
  intros V P M. destruct o as [n v|x|p [g|]|p x i w|x v|p|p]; cbn [step may plain] in *; try contradiction.
  - destruct M. now apply declare_inv.
  - now apply undeclare_inv.
  - now apply start_inv.
  - destruct M as (M1 & M2 & M3). now apply store_inv.
  - destruct M. now apply init_space_inv.
  - now apply finish_inv.
Qed.
Lemma run_inv : forall l c a, inv c a -> Forall plain l -> fair l a -> done (run l c) (orun l a).
Proof.
  induction l as [|o l IH]; intros c a V P F; cbn [run]; [exact V|].
  inversion P as [|? ? P1 P2]; subst. destruct F as [F1 F2]. pose proof (step_inv o c a V P1 F1) as D.
  destruct (step o c) as [c'| | |]; cbn [done] in *; try contradiction; auto. apply (IH c' (ostep o a) D P2 F2).
Qed.
