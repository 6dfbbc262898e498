(** Invariants of the send buffer. *)
From Coq Require Import List Arith NArith Bool Lia.
From Verif Require Import SerModel CbModel.
Import ListNotations.

Lemma nth_error_upd {A} (l : list A) i x j :
  nth_error (upd l i x) j = if i =? j then (if i <? length l then Some x else None) else nth_error l j.
Proof.
  revert i j. induction l as [|y l IH]; intros i j.
  - simpl. destruct i; simpl; destruct j; simpl; try reflexivity. destruct (i =? j); reflexivity.
  - destruct i, j; simpl; try reflexivity. rewrite IH. reflexivity.
Qed.

Lemma upd_length {A} (l : list A) i x : length (upd l i x) = length l.
Proof. revert i. induction l; intros [|i]; simpl; auto. Qed.

Lemma nth_error_upd_same {A} (l : list A) i x y : nth_error l i = Some y -> nth_error (upd l i x) i = Some x.
Proof.
  intro H. rewrite nth_error_upd, Nat.eqb_refl. replace (i <? length l) with true; [reflexivity|].
  symmetry. apply Nat.ltb_lt. apply nth_error_Some. rewrite H. discriminate.
Qed.

Lemma nth_error_upd_other {A} (l : list A) i x j : i <> j -> nth_error (upd l i x) j = nth_error l j.
Proof. intro H. rewrite nth_error_upd. apply Nat.eqb_neq in H. rewrite H. reflexivity. Qed.

Lemma nth_error_upd_some {A} (l : list A) i x j y : nth_error (upd l i x) j = Some y ->
  (i = j /\ y = x) \/ (i <> j /\ nth_error l j = Some y).
Proof.
  rewrite nth_error_upd. destruct (i =? j) eqn:E.
  - apply Nat.eqb_eq in E. destruct (i <? length l); intro H; [|discriminate]. injection H as <-. auto.
  - apply Nat.eqb_neq in E. auto.
Qed.

Lemma nth_error_snoc {A} (l : list A) x j y : nth_error (l ++ [x]) j = Some y ->
  nth_error l j = Some y \/ (j = length l /\ y = x).
Proof.
  destruct (Nat.lt_ge_cases j (length l)) as [H|H].
  - rewrite nth_error_app1 by exact H. auto.
  - rewrite nth_error_app2 by exact H. destruct (j - length l) eqn:E; simpl.
    + intro K. injection K as <-. right. split; [lia|reflexivity].
    + destruct n; discriminate.
Qed.

Lemma nth_error_nth_d {A} (l : list A) k x d : nth_error l k = Some x -> nth k l d = x.
Proof. intro H. apply nth_error_nth. exact H. Qed.

(** Messages lie one after the other. *)
Fixpoint contig (s : nat) (l : list msg) (e : nat) : Prop :=
  match l with
  | [] => s = e
  | m :: r => start m = s /\ contig (stop m) r e
  end.

Lemma contig_le : forall l s e, contig s l e -> s <= e.
Proof.
  induction l as [|m l IH]; simpl; intros s e H; [lia|]. destruct H as [<- H]. apply IH in H. unfold stop in H. lia.
Qed.

Lemma contig_snoc : forall l s e d lo w, contig s l e -> contig s (l ++ [Msg e d lo w]) (e + length d).
Proof.
  induction l as [|m l IH]; simpl; intros s e d lo w H.
  - subst s. split; reflexivity.
  - destruct H as [H1 H2]. split; [exact H1|]. apply IH, H2.
Qed.

Lemma contig_upd : forall l s e i m m', contig s l e -> nth_error l i = Some m ->
  start m' = start m -> data m' = data m -> contig s (upd l i m') e.
Proof.
  induction l as [|x l IH]; intros s e i m m' H N A B; [exact H|].
  destruct H as [H1 H2]. destruct i; simpl in *.
  - injection N as ->. split; [congruence|]. unfold stop in *. rewrite A, B. exact H2.
  - split; [exact H1|]. eapply IH; eauto.
Qed.

Lemma contig_from : forall l s e i m, contig s l e -> nth_error l i = Some m -> s <= start m /\ stop m <= e.
Proof.
  induction l as [|x l IH]; intros s e i m H N; [destruct i; discriminate|].
  destruct H as [H1 H2]. destruct i; simpl in N.
  - injection N as ->. split; [lia|]. apply contig_le in H2. exact H2.
  - destruct (IH _ _ _ _ H2 N) as [A B]. split; [unfold stop in A; lia|exact B].
Qed.

Lemma contig_order : forall l s e i j mi mj, contig s l e -> i < j ->
  nth_error l i = Some mi -> nth_error l j = Some mj -> stop mi <= start mj.
Proof.
  induction l as [|x l IH]; intros s e i j mi mj H L Ni Nj; [destruct i; discriminate|].
  destruct H as [H1 H2]. destruct j; [lia|]. destruct i; simpl in *.
  - injection Ni as ->. apply (contig_from _ _ _ _ _ H2 Nj).
  - apply (IH _ _ i j mi mj H2); auto. lia.
Qed.

(** The content at the place of a message. *)
Definition mem_at (c : cbuf) (p : place) : mem :=
  match p with Main => store c | Back k => bbuf (nth k (backs c) blank) end.

Record inv (c : cbuf) : Prop := {
  i_contig : contig 0 (msgs c) (allocs c);
  i_none : forall i m, nth_error (msgs c) i = Some m -> loc m = None -> written m = false;
  i_main : forall i m, nth_error (msgs c) i = Some m -> loc m = Some Main -> stop m <= cap c;
  i_back : forall i m k, nth_error (msgs c) i = Some m -> loc m = Some (Back k) ->
    cap c < stop m /\ (exists b, nth_error (backs c) k = Some b /\ stop m <= bfill b) /\
    (forall j b, j < k -> nth_error (backs c) j = Some b -> bmax b <= stop m);
  i_fill : forall k b, nth_error (backs c) k = Some b ->
    bfill b <= bmax b /\ exists i m, nth_error (msgs c) i = Some m /\ loc m = Some (Back k) /\ stop m = bfill b;
  i_filled : forall i m, nth_error (msgs c) i = Some m -> loc m <> None -> start m <= cap c < stop m ->
    filled c = start m;
  i_data : forall i m, nth_error (msgs c) i = Some m -> written m = true ->
    exists p, loc m = Some p /\ forall q, q < length (data m) -> mem_at c p (start m + q) = nth q (data m) 0%N
}.

Lemma fresh_inv n m : inv (fresh n m).
Proof. constructor; simpl; try reflexivity; intros; try (destruct i; discriminate); destruct k; discriminate. Qed.

Lemma reserve_inv bsize c d c' : inv c -> step bsize c (Reserve d) = Some c' -> inv c'.
Proof.
  intros I H. simpl in H. injection H as <-. destruct I as [I1 I2 I3 I4 I5 I6 I7]. constructor; simpl.
  - apply contig_snoc, I1.
  - intros i m N L. apply nth_error_snoc in N. destruct N as [N|[_ ->]]; [apply (I2 i m N L)|reflexivity].
  - intros i m N L. apply nth_error_snoc in N. destruct N as [N|[_ ->]]; [apply (I3 i m N L)|discriminate].
  - intros i m k N L. apply nth_error_snoc in N. destruct N as [N|[_ ->]]; [apply (I4 i m k N L)|discriminate].
  - intros k b N. destruct (I5 k b N) as (A & i & m & M & L & E). split; [exact A|].
    exists i, m. split; [|auto]. rewrite nth_error_app1; [exact M|]. apply nth_error_Some. rewrite M. discriminate.
  - intros i m N L. apply nth_error_snoc in N. destruct N as [N|[_ ->]]; [apply (I6 i m N L)|contradiction].
  - intros i m N W. apply nth_error_snoc in N. destruct N as [N|[_ ->]]; [apply (I7 i m N W)|discriminate].
Qed.

Lemma find_backup_some : forall bs k0 need k, find_backup k0 need bs = Some k ->
  exists b, k0 <= k /\ nth_error bs (k - k0) = Some b /\ need < bmax b /\
    forall j b', j < k - k0 -> nth_error bs j = Some b' -> bmax b' <= need.
Proof.
  induction bs as [|b bs IH]; intros k0 need k H; [discriminate|]. simpl in H.
  destruct (need <? bmax b) eqn:E.
  - injection H as <-. apply Nat.ltb_lt in E. exists b. rewrite Nat.sub_diag. repeat split; auto. intros. lia.
  - apply Nat.ltb_ge in E. apply IH in H. destruct H as (b1 & A & B & C & D).
    exists b1. replace (k - k0) with (S (k - S k0)) by lia. repeat split; auto; [lia|].
    intros j b' L N. destruct j; simpl in N; [injection N as <-; lia|]. apply (D j b'); auto. lia.
Qed.

Lemma find_backup_none : forall bs k0 need, find_backup k0 need bs = None ->
  forall j b, nth_error bs j = Some b -> bmax b <= need.
Proof.
  induction bs as [|b bs IH]; intros k0 need H j b' N; [destruct j; discriminate|]. simpl in H.
  destruct (need <? bmax b) eqn:E; [discriminate|]. apply Nat.ltb_ge in E.
  destruct j; simpl in N; [injection N as <-; exact E|]. apply (IH _ _ H j b' N).
Qed.

Lemma enough_ge : forall fuel sz need, 0 < sz -> need <= sz + fuel -> need <= enough fuel sz need.
Proof.
  induction fuel as [|f IH]; intros sz need P L; simpl; [lia|].
  destruct (sz <? need) eqn:E; [|apply Nat.ltb_ge in E; exact E]. apply IH; lia.
Qed.

(** The backups keep a positive size. *)
Definition bpos (c : cbuf) : Prop := forall k b, nth_error (backs c) k = Some b -> 0 < bmax b.

Lemma enough_pos : forall fuel sz need, 0 < sz -> 0 < enough fuel sz need.
Proof.
  induction fuel as [|f IH]; intros sz need P; simpl; [exact P|]. destruct (sz <? need); [apply IH; lia|exact P].
Qed.

Lemma last_nth_error {A} (l : list A) d : l <> [] -> exists k, nth_error l k = Some (last l d) /\ S k = length l.
Proof.
  induction l as [|x l IH]; intro H; [contradiction|]. destruct l as [|y l]; [exists 0; auto|].
  destruct IH as (k & K & L); [discriminate|]. exists (S k). split; [exact K|simpl in *; lia].
Qed.

Lemma settle_inv bsize c i junk c' : 0 < bsize -> inv c -> bpos c ->
  step bsize c (Settle i junk) = Some c' -> inv c' /\ bpos c'.
Proof.
  intros Bz I P H. simpl in H.
  destruct (nth_error (msgs c) i) as [m|] eqn:N; [|discriminate].
  destruct (loc m) as [p|] eqn:L; [discriminate|].
  assert (W: written m = false) by (apply (i_none c I i m N L)).
  unfold settle in H. destruct (cap c <? stop m) eqn:Ov.
  - apply Nat.ltb_lt in Ov.
    destruct (find_backup 0 (stop m) (backs c)) as [k|] eqn:F.
    + apply find_backup_some in F. rewrite Nat.sub_0_r in F. destruct F as (b & _ & Nb & Mb & Lo).
      rewrite (nth_error_nth_d _ _ _ blank Nb) in H. injection H as <-.
      destruct I as [I1 I2 I3 I4 I5 I6 I7]. split.
      * constructor; cbn [cap allocs filled store backs msgs].
        -- apply (contig_upd _ _ _ _ m); auto.
        -- intros j x Nx Lx. apply nth_error_upd_some in Nx. destruct Nx as [[<- ->]|[Nij Nx]]; [discriminate|apply (I2 j x Nx Lx)].
        -- intros j x Nx Lx. apply nth_error_upd_some in Nx. destruct Nx as [[<- ->]|[Nij Nx]]; [discriminate|apply (I3 j x Nx Lx)].
        -- intros j x k' Nx Lx. apply nth_error_upd_some in Nx. destruct Nx as [[<- ->]|[Nij Nx]].
           ++ simpl in Lx. injection Lx as <-. split; [exact Ov|]. split.
              ** eexists. split; [apply (nth_error_upd_same _ _ _ b Nb)|]. simpl. unfold stop in *. simpl. lia.
              ** intros j b' Lj Nj. rewrite nth_error_upd_other in Nj by lia. apply (Lo j b' Lj Nj).
           ++ destruct (I4 j x k' Nx Lx) as (A & (b' & Nb' & Fb') & C). split; [exact A|]. split.
              ** destruct (Nat.eq_dec k k') as [->|Nk].
                 --- eexists. split; [apply (nth_error_upd_same _ _ _ b Nb)|]. simpl. rewrite Nb in Nb'. injection Nb' as <-. lia.
                 --- exists b'. split; [rewrite nth_error_upd_other by exact Nk; exact Nb'|exact Fb'].
              ** intros j0 b0 Lj Nj. apply nth_error_upd_some in Nj. destruct Nj as [[<- ->]|[_ Nj]].
                 --- simpl. apply (C k b Lj Nb).
                 --- apply (C j0 b0 Lj Nj).
        -- intros k' b' Nb'. apply nth_error_upd_some in Nb'. destruct Nb' as [[<- ->]|[Nk Nb']].
           ++ cbn [bfill bmax]. destruct (I5 k b Nb) as (A & j & x & Nx & Lx & Ex). split; [lia|].
              destruct (Nat.max_spec (stop m) (bfill b)) as [[Cm Em]|[Cm Em]]; rewrite Em.
              ** exists j, x. assert (i <> j) by (intros ->; rewrite N in Nx; injection Nx as <-; congruence).
                 rewrite nth_error_upd_other by assumption. auto.
              ** exists i, (Msg (start m) (data m) (Some (Back k)) false). split; [apply (nth_error_upd_same _ _ _ m N)|].
                 split; [reflexivity|]. unfold stop. reflexivity.
           ++ destruct (I5 k' b' Nb') as (A & j & x & Nx & Lx & Ex). split; [exact A|].
              exists j, x. assert (i <> j) by (intros ->; rewrite N in Nx; injection Nx as <-; congruence).
              rewrite nth_error_upd_other by assumption. auto.
        -- intros j x Nx Lx Rx. apply nth_error_upd_some in Nx. destruct Nx as [[<- ->]|[Nij Nx]].
           ++ cbn [start] in *. destruct Rx as [Rx _]. apply Nat.leb_le in Rx. rewrite Rx. reflexivity.
           ++ destruct (start m <=? cap c) eqn:Sm; [|apply (I6 j x Nx Lx Rx)]. exfalso. apply Nat.leb_le in Sm.
              destruct (Nat.lt_trichotomy i j) as [Q|[Q|Q]]; [|lia|].
              ** pose proof (contig_order _ _ _ _ _ _ _ I1 Q N Nx). lia.
              ** pose proof (contig_order _ _ _ _ _ _ _ I1 Q Nx N). lia.
        -- intros j x Nx Wx. apply nth_error_upd_some in Nx. destruct Nx as [[<- ->]|[Nij Nx]]; [discriminate|].
           destruct (I7 j x Nx Wx) as (p & Lp & Dp). exists p. split; [exact Lp|]. intros q Q. rewrite <- (Dp q Q).
           destruct p as [|k']; [reflexivity|]. unfold mem_at. cbn [backs].
           destruct (Nat.eq_dec k k') as [->|Nk].
           ++ rewrite (nth_error_nth_d _ _ _ blank (nth_error_upd_same _ _ _ b Nb)).
              rewrite (nth_error_nth_d _ _ _ blank Nb). reflexivity.
           ++ destruct (I4 j x k' Nx Lp) as (_ & (b' & Nb' & _) & _).
              rewrite (nth_error_nth_d _ _ _ blank Nb').
              rewrite (nth_error_nth_d _ _ b' blank); [reflexivity|]. rewrite nth_error_upd_other by exact Nk. exact Nb'.
      * intros k' b' Nb'. cbn [backs] in Nb'. apply nth_error_upd_some in Nb'. destruct Nb' as [[<- ->]|[Nk Nb']].
        -- simpl. lia.
        -- apply (P k' b' Nb').
    + pose proof (find_backup_none _ _ _ F) as Lo.
      set (first := match backs c with [] => bsize | _ :: _ => bmax (last (backs c) blank) * 8 end) in H.
      assert (Fp: 0 < first).
      { unfold first. destruct (backs c) as [|b0 bs0] eqn:E; [exact Bz|].
        destruct (last_nth_error (backs c) blank) as (k & K & _); [rewrite E; discriminate|].
        pose proof (P k _ K). rewrite E in *. lia. }
      set (sz := enough (stop m) first (stop m)) in H.
      assert (Sz: stop m <= sz) by (apply enough_ge; lia).
      assert (Sp: 0 < sz) by (apply enough_pos; exact Fp).
      clearbody first sz. injection H as <-. destruct I as [I1 I2 I3 I4 I5 I6 I7].
      split.
      * constructor; cbn [cap allocs filled store backs msgs].
        -- apply (contig_upd _ _ _ _ m); auto.
        -- intros j x Nx Lx. apply nth_error_upd_some in Nx. destruct Nx as [[<- ->]|[Nij Nx]]; [discriminate|apply (I2 j x Nx Lx)].
        -- intros j x Nx Lx. apply nth_error_upd_some in Nx. destruct Nx as [[<- ->]|[Nij Nx]]; [discriminate|apply (I3 j x Nx Lx)].
        -- intros j x k' Nx Lx. apply nth_error_upd_some in Nx. destruct Nx as [[<- ->]|[Nij Nx]].
           ++ simpl in Lx. injection Lx as <-. split; [exact Ov|]. split.
              ** eexists. split; [rewrite nth_error_app2 by lia; rewrite Nat.sub_diag; reflexivity|]. simpl. unfold stop. simpl. lia.
              ** intros j b' Lj Nj. rewrite nth_error_app1 in Nj by exact Lj. apply (Lo j b' Nj).
           ++ destruct (I4 j x k' Nx Lx) as (A & (b' & Nb' & Fb') & C). split; [exact A|].
              assert (k' < length (backs c)) by (apply nth_error_Some; rewrite Nb'; discriminate). split.
              ** exists b'. split; [rewrite nth_error_app1 by assumption; exact Nb'|exact Fb'].
              ** intros j0 b0 Lj Nj. rewrite nth_error_app1 in Nj by lia. apply (C j0 b0 Lj Nj).
        -- intros k' b' Nb'. apply nth_error_snoc in Nb'. destruct Nb' as [Nb'|[-> ->]].
           ++ destruct (I5 k' b' Nb') as (A & j & x & Nx & Lx & Ex). split; [exact A|].
              exists j, x. assert (i <> j) by (intros ->; rewrite N in Nx; injection Nx as <-; congruence).
              rewrite nth_error_upd_other by assumption. auto.
           ++ cbn [bfill bmax]. split; [exact Sz|]. exists i, (Msg (start m) (data m) (Some (Back (length (backs c)))) false).
              split; [apply (nth_error_upd_same _ _ _ m N)|]. split; reflexivity.
        -- intros j x Nx Lx Rx. apply nth_error_upd_some in Nx. destruct Nx as [[<- ->]|[Nij Nx]].
           ++ cbn [start] in *. destruct Rx as [Rx _]. apply Nat.leb_le in Rx. rewrite Rx. reflexivity.
           ++ destruct (start m <=? cap c) eqn:Sm; [|apply (I6 j x Nx Lx Rx)]. exfalso. apply Nat.leb_le in Sm.
              destruct (Nat.lt_trichotomy i j) as [Q|[Q|Q]]; [|lia|].
              ** pose proof (contig_order _ _ _ _ _ _ _ I1 Q N Nx). lia.
              ** pose proof (contig_order _ _ _ _ _ _ _ I1 Q Nx N). lia.
        -- intros j x Nx Wx. apply nth_error_upd_some in Nx. destruct Nx as [[<- ->]|[Nij Nx]]; [discriminate|].
           destruct (I7 j x Nx Wx) as (p & Lp & Dp). exists p. split; [exact Lp|]. intros q Q. rewrite <- (Dp q Q).
           destruct p as [|k']; [reflexivity|]. unfold mem_at. cbn [backs].
           destruct (I4 j x k' Nx Lp) as (_ & (b' & Nb' & _) & _).
           rewrite app_nth1; [reflexivity|]. apply nth_error_Some. rewrite Nb'. discriminate.
      * intros k' b' Nb'. cbn [backs] in Nb'. apply nth_error_snoc in Nb'. destruct Nb' as [Nb'|[-> ->]].
        -- apply (P k' b' Nb').
        -- exact Sp.
  - apply Nat.ltb_ge in Ov. injection H as <-. destruct I as [I1 I2 I3 I4 I5 I6 I7]. split; [|exact P].
    constructor; cbn [cap allocs filled store backs msgs].
    + apply (contig_upd _ _ _ _ m); auto.
    + intros j x Nx Lx. apply nth_error_upd_some in Nx. destruct Nx as [[<- ->]|[Nij Nx]]; [discriminate|apply (I2 j x Nx Lx)].
    + intros j x Nx Lx. apply nth_error_upd_some in Nx. destruct Nx as [[<- ->]|[Nij Nx]]; [exact Ov|apply (I3 j x Nx Lx)].
    + intros j x k' Nx Lx. apply nth_error_upd_some in Nx. destruct Nx as [[<- ->]|[Nij Nx]]; [discriminate|apply (I4 j x k' Nx Lx)].
    + intros k' b' Nb'. destruct (I5 k' b' Nb') as (A & j & x & Nx & Lx & Ex). split; [exact A|].
      exists j, x. assert (i <> j) by (intros ->; rewrite N in Nx; injection Nx as <-; congruence).
      rewrite nth_error_upd_other by assumption. auto.
    + intros j x Nx Lx Rx. apply nth_error_upd_some in Nx. destruct Nx as [[<- ->]|[Nij Nx]].
      * unfold stop in *. cbn [start data] in *. lia.
      * apply (I6 j x Nx Lx Rx).
    + intros j x Nx Wx. apply nth_error_upd_some in Nx. destruct Nx as [[<- ->]|[Nij Nx]]; [discriminate|].
      apply (I7 j x Nx Wx).
Qed.

Lemma wr_in m off bs q : q < length bs -> wr m off bs (off + q) = nth q bs 0%N.
Proof.
  intro H. unfold wr. replace (off <=? off + q) with true by (symmetry; apply Nat.leb_le; lia).
  replace (off + q <? off + length bs) with true by (symmetry; apply Nat.ltb_lt; lia). simpl. f_equal. lia.
Qed.

Lemma wr_out m off bs p : p < off \/ off + length bs <= p -> wr m off bs p = m p.
Proof.
  intro H. unfold wr. destruct (off <=? p) eqn:A; [|reflexivity]. apply Nat.leb_le in A.
  replace (p <? off + length bs) with false by (symmetry; apply Nat.ltb_ge; lia). reflexivity.
Qed.

Lemma write_inv bsize c i c' : inv c -> bpos c -> step bsize c (Write i) = Some c' -> inv c' /\ bpos c'.
Proof.
  intros I P H. simpl in H. destruct (nth_error (msgs c) i) as [m|] eqn:N; [|discriminate].
  destruct (loc m) as [[|k]|] eqn:L; destruct (written m) eqn:W; try discriminate.
  - injection H as <-. destruct I as [I1 I2 I3 I4 I5 I6 I7]. split; [|exact P].
    constructor; cbn [cap allocs filled store backs msgs].
    + apply (contig_upd _ _ _ _ m); auto.
    + intros j x Nx Lx. apply nth_error_upd_some in Nx. destruct Nx as [[<- ->]|[Nij Nx]]; [discriminate|apply (I2 j x Nx Lx)].
    + intros j x Nx Lx. apply nth_error_upd_some in Nx. destruct Nx as [[<- ->]|[Nij Nx]]; [apply (I3 i m N L)|apply (I3 j x Nx Lx)].
    + intros j x k' Nx Lx. apply nth_error_upd_some in Nx. destruct Nx as [[<- ->]|[Nij Nx]]; [discriminate|apply (I4 j x k' Nx Lx)].
    + intros k' b' Nb'. destruct (I5 k' b' Nb') as (A & j & x & Nx & Lx & Ex). split; [exact A|].
      exists j, x. assert (i <> j) by (intros ->; rewrite N in Nx; injection Nx as <-; congruence).
      rewrite nth_error_upd_other by assumption. auto.
    + intros j x Nx Lx Rx. apply nth_error_upd_some in Nx. destruct Nx as [[<- ->]|[Nij Nx]].
      * apply (I6 i m N); [congruence|exact Rx].
      * apply (I6 j x Nx Lx Rx).
    + intros j x Nx Wx. apply nth_error_upd_some in Nx. destruct Nx as [[<- ->]|[Nij Nx]].
      * exists Main. split; [reflexivity|]. intros q Q. simpl. apply wr_in, Q.
      * destruct (I7 j x Nx Wx) as (p & Lp & Dp). exists p. split; [exact Lp|]. intros q Q. rewrite <- (Dp q Q).
        destruct p as [|k']; [|reflexivity]. simpl. apply wr_out.
        destruct (Nat.lt_trichotomy i j) as [R|[R|R]]; [|lia|].
        -- pose proof (contig_order _ _ _ _ _ _ _ I1 R N Nx). unfold stop in *. lia.
        -- pose proof (contig_order _ _ _ _ _ _ _ I1 R Nx N). unfold stop in *. lia.
  - injection H as <-. destruct I as [I1 I2 I3 I4 I5 I6 I7].
    destruct (I4 i m k N L) as (Cm & (b & Nb & Fb) & Lo). rewrite (nth_error_nth_d _ _ _ blank Nb). split.
    + constructor; cbn [cap allocs filled store backs msgs].
      * apply (contig_upd _ _ _ _ m); auto.
      * intros j x Nx Lx. apply nth_error_upd_some in Nx. destruct Nx as [[<- ->]|[Nij Nx]]; [discriminate|apply (I2 j x Nx Lx)].
      * intros j x Nx Lx. apply nth_error_upd_some in Nx. destruct Nx as [[<- ->]|[Nij Nx]]; [discriminate|apply (I3 j x Nx Lx)].
      * intros j x k' Nx Lx.
        assert (G: exists x0, nth_error (msgs c) j = Some x0 /\ loc x0 = Some (Back k') /\ stop x0 = stop x).
        { apply nth_error_upd_some in Nx. destruct Nx as [[<- ->]|[Nij Nx]].
          - exists m. simpl in Lx. injection Lx as <-. auto.
          - exists x. auto. }
        destruct G as (x0 & Nx0 & Lx0 & Ex0). rewrite <- Ex0.
        destruct (I4 j x0 k' Nx0 Lx0) as (A & (b' & Nb' & Fb') & C). split; [exact A|]. split.
        -- destruct (Nat.eq_dec k k') as [->|Nk].
           ++ eexists. split; [apply (nth_error_upd_same _ _ _ b Nb)|]. simpl. rewrite Nb in Nb'. injection Nb' as <-. exact Fb'.
           ++ exists b'. split; [rewrite nth_error_upd_other by exact Nk; exact Nb'|exact Fb'].
        -- intros j0 b0 Lj Nj. apply nth_error_upd_some in Nj. destruct Nj as [[<- ->]|[_ Nj]].
           ++ simpl. apply (C k b Lj Nb).
           ++ apply (C j0 b0 Lj Nj).
      * intros k' b' Nb'.
        assert (G: exists b0, nth_error (backs c) k' = Some b0 /\ bfill b0 = bfill b' /\ bmax b0 = bmax b').
        { apply nth_error_upd_some in Nb'. destruct Nb' as [[<- ->]|[_ Nb']]; [exists b; auto|exists b'; auto]. }
        destruct G as (b0 & Nb0 & <- & <-).
        destruct (I5 k' b0 Nb0) as (A & j & x & Nx & Lx & Ex). split; [exact A|].
        destruct (Nat.eq_dec i j) as [<-|Nij].
        -- rewrite N in Nx. injection Nx as <-. rewrite L in Lx. injection Lx as <-.
           exists i, (Msg (start m) (data m) (Some (Back k)) true). split; [apply (nth_error_upd_same _ _ _ m N)|].
           split; [reflexivity|exact Ex].
        -- exists j, x. rewrite nth_error_upd_other by exact Nij. auto.
      * intros j x Nx Lx Rx. apply nth_error_upd_some in Nx. destruct Nx as [[<- ->]|[Nij Nx]].
        -- apply (I6 i m N); [congruence|exact Rx].
        -- apply (I6 j x Nx Lx Rx).
      * intros j x Nx Wx. apply nth_error_upd_some in Nx. destruct Nx as [[<- ->]|[Nij Nx]].
        -- exists (Back k). split; [reflexivity|]. intros q Q. unfold mem_at. cbn [backs start data].
           rewrite (nth_error_nth_d _ _ _ blank (nth_error_upd_same _ _ _ b Nb)). simpl. apply wr_in, Q.
        -- destruct (I7 j x Nx Wx) as (p & Lp & Dp). exists p. split; [exact Lp|]. intros q Q. rewrite <- (Dp q Q).
           destruct p as [|k']; [reflexivity|]. unfold mem_at. cbn [backs].
           destruct (I4 j x k' Nx Lp) as (_ & (b' & Nb' & _) & _). destruct (Nat.eq_dec k k') as [<-|Nk].
           ++ rewrite (nth_error_nth_d _ _ _ blank (nth_error_upd_same _ _ _ b Nb)).
              rewrite (nth_error_nth_d _ _ _ blank Nb). simpl. apply wr_out.
              destruct (Nat.lt_trichotomy i j) as [R|[R|R]]; [|lia|].
              ** pose proof (contig_order _ _ _ _ _ _ _ I1 R N Nx). unfold stop in *. lia.
              ** pose proof (contig_order _ _ _ _ _ _ _ I1 R Nx N). unfold stop in *. lia.
           ++ rewrite (nth_error_nth_d _ _ _ blank Nb').
              rewrite (nth_error_nth_d _ _ b' blank); [reflexivity|]. rewrite nth_error_upd_other by exact Nk. exact Nb'.
    + intros k' b' Nb'. cbn [backs] in Nb'. apply nth_error_upd_some in Nb'. destruct Nb' as [[<- ->]|[_ Nb']].
      * simpl. apply (P k b Nb).
      * apply (P k' b' Nb').
Qed.

Lemma step_inv bsize c a c' : 0 < bsize -> inv c -> bpos c -> step bsize c a = Some c' -> inv c' /\ bpos c'.
Proof.
  intros B I P H. destruct a as [d|i junk|i].
  - split; [apply (reserve_inv bsize c d c' I H)|]. simpl in H. injection H as <-. exact P.
  - apply (settle_inv bsize c i junk c' B I P H).
  - apply (write_inv bsize c i c' I P H).
Qed.

Lemma run_inv bsize : 0 < bsize -> forall l c c', inv c -> bpos c -> run bsize c l = Some c' -> inv c' /\ bpos c'.
Proof.
  intro B. induction l as [|a l IH]; intros c c' I P H; simpl in H; [injection H as <-; auto|].
  destruct (step bsize c a) as [c1|] eqn:E; [|discriminate].
  destruct (step_inv bsize c a c1 B I P E) as [I1 P1]. apply (IH c1 c' I1 P1 H).
Qed.

Lemma cap_step bsize c a c' : step bsize c a = Some c' -> cap c' = cap c.
Proof.
  destruct a as [d|i junk|i]; simpl; intro H.
  - injection H as <-. reflexivity.
  - destruct (nth_error (msgs c) i) as [m|]; [|discriminate]. destruct (loc m); [discriminate|].
    unfold settle in H. destruct (cap c <? stop m); [|injection H as <-; reflexivity].
    destruct (find_backup 0 (stop m) (backs c)); injection H as <-; reflexivity.
  - destruct (nth_error (msgs c) i) as [m|]; [|discriminate]. destruct (loc m) as [[|k]|]; destruct (written m); try discriminate;
      injection H as <-; reflexivity.
Qed.

(** The bytes reserved, in order. *)
Fixpoint reserved (l : list act) : list (list byte) :=
  match l with
  | [] => []
  | Reserve d :: r => d :: reserved r
  | _ :: r => reserved r
  end.

Lemma map_upd {A B} (f : A -> B) : forall l i x y, nth_error l i = Some y -> f x = f y -> map f (upd l i x) = map f l.
Proof.
  induction l as [|z l IH]; intros [|i] x y N E; try discriminate; simpl in *.
  - injection N as ->. rewrite E. reflexivity.
  - rewrite (IH _ _ _ N E). reflexivity.
Qed.

Lemma step_data bsize c a c' : step bsize c a = Some c' ->
  map data (msgs c') = map data (msgs c) ++ reserved [a].
Proof.
  destruct a as [d|i junk|i]; simpl; intro H; rewrite ?app_nil_r.
  - injection H as <-. simpl. rewrite map_app. reflexivity.
  - destruct (nth_error (msgs c) i) as [m|] eqn:N; [|discriminate]. destruct (loc m); [discriminate|].
    unfold settle in H. destruct (cap c <? stop m).
    + destruct (find_backup 0 (stop m) (backs c)); injection H as <-; simpl; apply (map_upd data _ _ _ m N); reflexivity.
    + injection H as <-. simpl. apply (map_upd data _ _ _ m N). reflexivity.
  - destruct (nth_error (msgs c) i) as [m|] eqn:N; [|discriminate]. destruct (loc m) as [[|k]|]; destruct (written m); try discriminate;
      injection H as <-; simpl; apply (map_upd data _ _ _ m N); reflexivity.
Qed.

Lemma run_data bsize : forall l c c', run bsize c l = Some c' -> map data (msgs c') = map data (msgs c) ++ reserved l.
Proof.
  induction l as [|a l IH]; intros c c' H; simpl in H.
  - injection H as <-. simpl. rewrite app_nil_r. reflexivity.
  - destruct (step bsize c a) as [c1|] eqn:E; [|discriminate]. rewrite (IH c1 c' H), (step_data _ _ _ _ E), <- app_assoc.
    f_equal. destruct a; reflexivity.
Qed.

(** ** The final copy *)

Lemma cp_in dst src off n p : off <= p < off + n -> cp dst src off n p = src p.
Proof.
  intro H. unfold cp. replace (off <=? p) with true by (symmetry; apply Nat.leb_le; lia).
  replace (p <? off + n) with true by (symmetry; apply Nat.ltb_lt; lia). reflexivity.
Qed.

Lemma cp_out dst src off n p : p < off \/ off + n <= p -> cp dst src off n p = dst p.
Proof.
  intro H. unfold cp. destruct (off <=? p) eqn:A; [|reflexivity]. apply Nat.leb_le in A.
  replace (p <? off + n) with false by (symmetry; apply Nat.ltb_ge; lia). reflexivity.
Qed.

(** Fill marks in increasing order. *)
Fixpoint marks (f : nat) (bs : list backup) : Prop :=
  match bs with
  | [] => True
  | b :: r => f <= bfill b /\ marks (bfill b) r
  end.

(** Below the current position nothing changes any more. *)
Lemma copy_below : forall bs final next lf mark p, p < lf -> copy_loop final next lf mark bs p = final p.
Proof.
  induction bs as [|b bs IH]; intros final next lf mark p H; [reflexivity|]. cbn [copy_loop].
  rewrite IH by lia. apply cp_out. lia.
Qed.

Lemma copy_source : forall bs final next lf mark p, lf <= p < mark -> bs <> [] ->
  copy_loop final next lf mark bs p = next p.
Proof.
  intros [|b bs] final next lf mark p H NE; [contradiction|]. cbn [copy_loop].
  rewrite copy_below by lia. apply cp_in. lia.
Qed.

Lemma copy_back : forall k bs final next lf mark p b b', lf <= mark -> marks mark bs ->
  nth_error bs k = Some b -> nth_error bs (S k) = Some b' ->
  (match k with O => mark | S j => bfill (nth j bs blank) end) <= p < bfill b ->
  copy_loop final next lf mark bs p = bbuf b p.
Proof.
  induction k as [|k IH]; intros bs final next lf mark p b b' Lm M N N' R.
  - destruct bs as [|b0 bs]; [discriminate|]. simpl in N, N'. injection N as ->. cbn [copy_loop].
    replace (lf + (mark - lf)) with mark by lia. apply copy_source; [exact R|]. intros ->. discriminate.
  - destruct bs as [|b0 bs]; [discriminate|]. simpl in N, N'. destruct M as [M1 M2]. cbn [copy_loop].
    replace (lf + (mark - lf)) with mark by lia.
    eapply IH; eauto. destruct k; simpl in R |- *; exact R.
Qed.

Lemma copy_last : forall bs final next lf mark p, lf <= mark -> marks mark bs ->
  (match length bs with O => True | 1 => mark <= p | S (S j) => bfill (nth j bs blank) <= p end) ->
  copy_loop final next lf mark bs p = final p.
Proof.
  induction bs as [|b bs IH]; intros final next lf mark p Lm M R; [reflexivity|]. cbn [copy_loop].
  destruct M as [M1 M2]. replace (lf + (mark - lf)) with mark by lia.
  assert (Q: mark <= p).
  { destruct bs as [|b1 bs]; [exact R|]. cbn [length] in R.
    clear - R M1 M2. revert b mark M1 M2 R.
    assert (G: forall l f j, marks f l -> j < length l -> f <= bfill (nth j l blank)).
    { induction l as [|x l IH]; intros f j M L; [simpl in L; lia|]. destruct M as [A B]. destruct j; simpl; [exact A|].
      simpl in L. pose proof (IH (bfill x) j B ltac:(lia)). lia. }
    intros b mark M1 M2 R.
    pose proof (G (b :: b1 :: bs) mark (length bs) (conj M1 M2) ltac:(simpl; lia)). lia. }
  rewrite IH; [apply cp_out; lia|lia|exact M2|].
  destruct bs as [|b1 [|b2 bs]]; [exact I| |].
  - simpl in R |- *. exact R.
  - cbn [length] in R |- *. exact R.
Qed.

(** ** The end of a window *)

Definition nonempty (c : cbuf) : Prop := forall i m, nth_error (msgs c) i = Some m -> 0 < length (data m).
Definition all_written (c : cbuf) : Prop := forall i m, nth_error (msgs c) i = Some m -> written m = true.

Lemma before c i j mi mj : inv c -> nonempty c -> nth_error (msgs c) i = Some mi -> nth_error (msgs c) j = Some mj ->
  stop mi < stop mj -> stop mi <= start mj.
Proof.
  intros I NE Ni Nj H. destruct (Nat.lt_trichotomy i j) as [Q|[Q|Q]].
  - apply (contig_order _ _ _ _ _ _ _ (i_contig c I) Q Ni Nj).
  - subst j. rewrite Ni in Nj. injection Nj as <-. lia.
  - pose proof (contig_order _ _ _ _ _ _ _ (i_contig c I) Q Nj Ni). unfold stop in *. lia.
Qed.

Lemma same_stop c i j mi mj : inv c -> nonempty c -> nth_error (msgs c) i = Some mi -> nth_error (msgs c) j = Some mj ->
  stop mi = stop mj -> mi = mj.
Proof.
  intros I NE Ni Nj H. pose proof (NE _ _ Ni). pose proof (NE _ _ Nj). destruct (Nat.lt_trichotomy i j) as [Q|[Q|Q]].
  - pose proof (contig_order _ _ _ _ _ _ _ (i_contig c I) Q Ni Nj). unfold stop in *. lia.
  - subst j. congruence.
  - pose proof (contig_order _ _ _ _ _ _ _ (i_contig c I) Q Nj Ni). unfold stop in *. lia.
Qed.

(** The first message that does not fit. *)
Lemma first_over : forall l s e cp0 i m, contig s l e -> s <= cp0 -> nth_error l i = Some m -> cp0 < stop m ->
  exists j x, nth_error l j = Some x /\ start x <= cp0 < stop x /\ j <= i.
Proof.
  induction l as [|x l IH]; intros s e cp0 i m H L N O; [destruct i; discriminate|]. destruct H as [H1 H2].
  destruct (Nat.le_gt_cases (stop x) cp0) as [C|C].
  - destruct i; simpl in N; [injection N as ->; lia|].
    destruct (IH _ _ cp0 i m H2 C N O) as (j & y & A & B & D). exists (S j), y. repeat split; try tauto; lia.
  - exists 0, x. repeat split; auto; lia.
Qed.

Lemma final_data c : inv c -> nonempty c -> all_written c ->
  forall i m q, nth_error (msgs c) i = Some m -> q < length (data m) ->
  final_mem c (start m + q) = nth q (data m) 0%N.
Proof.
  intros I NE AW i m q N Q.
  destruct (i_data c I i m N (AW i m N)) as (p & Lp & Dp). rewrite <- (Dp q Q). unfold final_mem.
  assert (Placed: forall j x, nth_error (msgs c) j = Some x -> loc x <> None).
  { intros j x Nx E. pose proof (i_none c I j x Nx E) as F. rewrite (AW j x Nx) in F. discriminate. }
  destruct (backs c) as [|b0 bs0] eqn:E.
  { destruct p as [|k]; [reflexivity|]. destruct (i_back c I i m k N Lp) as (_ & (b & Nb & _) & _).
    rewrite E in Nb. destruct k; discriminate. }
  rewrite <- E.
  assert (Nz: backs c <> []) by (rewrite E; discriminate). clear E b0 bs0.
  (* the first message that overflows *)
  assert (X: exists j x, nth_error (msgs c) j = Some x /\ start x <= cap c < stop x).
  { destruct (backs c) as [|b0 bs0] eqn:E; [contradiction|].
    destruct (i_fill c I 0 b0) as (_ & j & x & Nx & Lx & _); [rewrite E; reflexivity|].
    destruct (i_back c I j x 0 Nx Lx) as (Ov & _).
    destruct (first_over _ _ _ (cap c) j x (i_contig c I) ltac:(lia) Nx Ov) as (j' & y & A & B & _). eauto. }
  destruct X as (jx & x & Nx & Rx).
  assert (Fx: filled c = start x) by (apply (i_filled c I jx x Nx); [apply (Placed jx x Nx)|exact Rx]).
  (* fill marks increase *)
  assert (B0: forall j y k, nth_error (msgs c) j = Some y -> loc y = Some (Back k) -> filled c <= start y).
  { intros j y k Ny Ly. rewrite Fx. destruct (i_back c I j y k Ny Ly) as (Ov & _).
    destruct (Nat.lt_trichotomy jx j) as [T|[T|T]].
    - pose proof (contig_order _ _ _ _ _ _ _ (i_contig c I) T Nx Ny). unfold stop in *. lia.
    - subst j. rewrite Nx in Ny. injection Ny as <-. lia.
    - pose proof (contig_order _ _ _ _ _ _ _ (i_contig c I) T Ny Nx). lia. }
  assert (B1: forall k b k' j y, k < k' -> nth_error (backs c) k = Some b -> nth_error (msgs c) j = Some y ->
              loc y = Some (Back k') -> bfill b <= start y).
  { intros k b k' j y K Nb Ny Ly. destruct (i_fill c I k b Nb) as (A & j2 & z & Nz2 & Lz & Ez).
    destruct (i_back c I j y k' Ny Ly) as (_ & _ & Lo). pose proof (Lo k b K Nb) as Mx.
    rewrite <- Ez. apply (before c j2 j z y I NE Nz2 Ny).
    destruct (Nat.eq_dec (stop z) (stop y)) as [Q2|Q2]; [|lia].
    pose proof (same_stop c j2 j z y I NE Nz2 Ny Q2) as ->. rewrite Ly in Lz. injection Lz as ->. lia. }
  assert (M0: forall bs k0 f, (forall k b, nth_error bs k = Some b -> nth_error (backs c) (k0 + k) = Some b) ->
              (forall b, nth_error bs 0 = Some b -> f <= bfill b) -> marks f bs).
  { induction bs as [|b bs IH]; intros k0 f Sub F0; [exact Logic.I|]. split; [apply F0; reflexivity|].
    apply (IH (S k0)).
    - intros k b' Nb'. replace (S k0 + k) with (k0 + S k) by lia. apply Sub. exact Nb'.
    - intros b' Nb'. pose proof (Sub 1 b' Nb') as S1. pose proof (Sub 0 b eq_refl) as S0.
      destruct (i_fill c I _ _ S1) as (_ & j & y & Ny & Ly & Ey). rewrite <- Ey.
      pose proof (B1 (k0 + 0) b (k0 + 1) j y ltac:(lia) S0 Ny Ly). unfold stop. lia. }
  assert (Mk: marks (filled c) (backs c)).
  { apply (M0 (backs c) 0); [auto|]. intros b Nb. destruct (i_fill c I 0 b Nb) as (_ & j & y & Ny & Ly & Ey).
    rewrite <- Ey. pose proof (B0 j y 0 Ny Ly). unfold stop. lia. }
  destruct p as [|k].
  - (* in the main buffer *)
    unfold mem_at. pose proof (i_main c I i m N Lp) as Fit.
    assert (stop m <= start x) by (apply (before c i jx m x I NE N Nx); lia).
    destruct (backs c) as [|b0 bs0] eqn:E; [contradiction|]. rewrite <- E in *.
    apply copy_source; [unfold stop in *; lia|exact Nz].
  - unfold mem_at. destruct (i_back c I i m k N Lp) as (Ov & (b & Nb & Fb) & Lo).
    assert (Lk: k < length (backs c)) by (apply nth_error_Some; rewrite Nb; discriminate).
    rewrite (nth_error_nth_d _ _ _ blank Nb).
    assert (Low: (match k with O => filled c | S j => bfill (nth j (backs c) blank) end) <= start m + q).
    { destruct k as [|k]; [pose proof (B0 i m 0 N Lp); lia|].
      destruct (nth_error (backs c) k) as [b1|] eqn:E1; [|apply nth_error_None in E1; lia].
      rewrite (nth_error_nth_d _ _ _ blank E1). pose proof (B1 k b1 (S k) i m ltac:(lia) E1 N Lp). lia. }
    destruct (last_nth_error (backs c) blank Nz) as (kl & Kl & Ll).
    destruct (backs c) as [|b0 bs0] eqn:E; [contradiction|]. rewrite <- E in *.
    destruct (Nat.eq_dec k kl) as [->|Nk].
    + rewrite Nb in Kl. injection Kl as <-.
      rewrite copy_last; [reflexivity|lia|exact Mk|]. rewrite <- Ll. destruct kl; [exact Low|exact Low].
    + destruct (nth_error (backs c) (S k)) as [b1|] eqn:E1; [|apply nth_error_None in E1; lia].
      apply (copy_back k (backs c) _ _ 0 (filled c) (start m + q) b b1); auto; [lia|].
      split; [exact Low|]. unfold stop in Fb. lia.
Qed.

Lemma contig_bytes (f : mem) : forall l s e, contig s l e ->
  (forall i m q, nth_error l i = Some m -> q < length (data m) -> f (start m + q) = nth q (data m) 0%N) ->
  map f (seq s (e - s)) = concat (map data l).
Proof.
  induction l as [|m l IH]; intros s e H D.
  - simpl in H. subst. rewrite Nat.sub_diag. reflexivity.
  - destruct H as [H1 H2]. pose proof (contig_le _ _ _ H2) as Le. unfold stop in Le.
    replace (e - s) with (length (data m) + (e - stop m)) by (unfold stop; lia).
    rewrite seq_app, map_app. cbn [map concat]. f_equal.
    + apply nth_ext with (d := 0%N) (d' := 0%N); [rewrite map_length, seq_length; reflexivity|].
      intros n Hn. rewrite map_length, seq_length in Hn.
      rewrite (nth_indep _ 0%N (f 0)) by (rewrite map_length, seq_length; exact Hn).
      rewrite map_nth, seq_nth by exact Hn. rewrite <- H1. apply (D 0 m n eq_refl Hn).
    + replace (s + length (data m)) with (stop m) by (unfold stop; lia). apply IH; [exact H2|].
      intros i x q Nx Q. apply (D (S i) x q Nx Q).
Qed.

Lemma sent_data c : inv c -> nonempty c -> all_written c -> sent c = concat (map data (msgs c)).
Proof.
  intros I NE AW. unfold sent. pose proof (contig_bytes (final_mem c) (msgs c) 0 (allocs c) (i_contig c I)
    (final_data c I NE AW)) as H. rewrite Nat.sub_0_r in H. exact H.
Qed.
