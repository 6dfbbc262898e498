From Coq Require Import List ZArith Arith Bool Lia.
From Verif Require Import TorusModel NetModel DfModel TorusSpec NetSpec NetProof FtProof DfProof.
Import ListNotations.

(** ** modular arithmetic *)
Lemma sm_lt : forall x y m, 0 < m -> sub_mod x y m < m.
Proof. intros. unfold sub_mod. pose proof (Z.mod_pos_bound (Z.of_nat x - Z.of_nat y) (Z.of_nat m) ltac:(lia)). lia. Qed.
Lemma sm_Z : forall x y m, 0 < m -> Z.of_nat (sub_mod x y m) = ((Z.of_nat x - Z.of_nat y) mod Z.of_nat m)%Z.
Proof. intros. unfold sub_mod. rewrite Z2Nat.id; auto. apply Z.mod_pos_bound. lia. Qed.
Lemma sm_add : forall G x g, G < g -> sub_mod ((G + x) mod g) x g = G.
Proof.
  intros. apply Nat2Z.inj. rewrite sm_Z by lia. rewrite Nat2Z.inj_mod, Zminus_mod_idemp_l, Nat2Z.inj_add.
  replace (Z.of_nat G + Z.of_nat x - Z.of_nat x)%Z with (Z.of_nat G) by lia. apply Z.mod_small. lia.
Qed.
Lemma add_sm : forall G x g, G < g -> (sub_mod G x g + x) mod g = G.
Proof.
  intros. apply Nat2Z.inj. rewrite Nat2Z.inj_mod, Nat2Z.inj_add, sm_Z, Zplus_mod_idemp_l by lia.
  replace (Z.of_nat G - Z.of_nat x + Z.of_nat x)%Z with (Z.of_nat G) by lia. apply Z.mod_small. lia.
Qed.
Lemma plus_fix : forall G x g, G < g -> ((G + x) mod g = G <-> x mod g = 0).
Proof.
  intros. split; intros E.
  - pose proof (Nat.div_mod (G + x) g ltac:(lia)) as H0. rewrite E in H0.
    replace x with ((G + x) / g * g) by lia. apply Nat.mod_mul. lia.
  - pose proof (Nat.div_mod x g ltac:(lia)) as H0. rewrite E in H0.
    replace (G + x) with (G + x / g * g) by lia. rewrite Nat.mod_add by lia. apply Nat.mod_small; auto.
Qed.
Lemma minus_fix : forall G x g, G < g -> (sub_mod G x g = G <-> x mod g = 0).
Proof.
  intros. rewrite <- (plus_fix G x g H). split; intros E.
  - rewrite <- E at 1. apply add_sm; auto.
  - rewrite <- E at 1. apply sm_add; auto.
Qed.

Lemma direct_some : forall D A G G' x, In x (d_conn D A G) -> df_G D x = G' -> direct_ports D A G G' <> [].
Proof.
  intros D A G G' x Hin E C. unfold direct_ports in C. apply map_eq_nil in C.
  apply In_nth_error in Hin. destruct Hin as [i Hi].
  assert (In (i, x) (filter (fun '(_, dst) => df_G D dst =? G') (indexed (d_conn D A G)))).
  { apply filter_In. split; [apply in_indexed; auto|]. apply Nat.eqb_eq; auto. }
  rewrite C in H. contradiction.
Qed.

(** ** circulant *)
Definition cshift (half A i : nat) := A * half + i.
Definition cpairs (a g half A G i : nat) : list nat :=
  [(G + cshift half A i) mod g * a + A; sub_mod G (cshift half A i) g * a + A].
Definition clive (g half A : nat) : list nat := filter (fun i => negb (cshift half A i mod g =? 0)) (seq 1 half).
Lemma circ_eq : forall a g h A G, G < g ->
  circ_conn a g h A G = flat_map (cpairs a g (h / 2) A G) (clive g (h / 2) A).
Proof.
  intros. unfold circ_conn, clive. generalize (seq 1 (h / 2)) as l. induction l; auto. cbn [flat_map filter].
  rewrite <- Nat.add_assoc. fold (cshift (h / 2) A a0).
  assert (E1 : ((G + cshift (h / 2) A a0) mod g =? G) = (cshift (h / 2) A a0 mod g =? 0)).
  { destruct (Nat.eqb_spec (cshift (h / 2) A a0 mod g) 0) as [E|E].
    - apply Nat.eqb_eq. apply plus_fix; auto.
    - apply Nat.eqb_neq. intro. apply E. apply plus_fix in H0; auto. }
  assert (E2 : (sub_mod G (cshift (h / 2) A a0) g =? G) = (cshift (h / 2) A a0 mod g =? 0)).
  { destruct (Nat.eqb_spec (cshift (h / 2) A a0 mod g) 0) as [E|E].
    - apply Nat.eqb_eq. apply minus_fix; auto.
    - apply Nat.eqb_neq. intro. apply E. apply minus_fix in H0; auto. }
  rewrite E1, E2. destruct (cshift (h / 2) A a0 mod g =? 0); cbn [negb app flat_map]; rewrite IHl; auto.
Qed.
Lemma nth_pairs : forall X (f : nat -> X) (e : nat -> X) l k,
  nth_error (flat_map (fun i => [f i; e i]) l) (2 * k) = option_map f (nth_error l k) /\
  nth_error (flat_map (fun i => [f i; e i]) l) (2 * k + 1) = option_map e (nth_error l k).
Proof.
  induction l; intros; simpl flat_map.
  - split; [destruct (2 * k)|destruct (2 * k + 1)]; destruct k; auto.
  - destruct k; auto. replace (2 * S k) with (S (S (2 * k))) by lia. exact (IHl k).
Qed.

Section Circ.
Variables (a g h : nat).
Hypothesis Ha : 0 < a.
Let D := circulant a g h.

Lemma circ_symmetric : symmetric D.
Proof.
  intros A G i dst HA HG Hn Hne. cbn [d_conn d_in d_a d_g D circulant] in *.
  rewrite circ_eq in Hn by auto. set (l := clive g (h / 2) A) in *.
  assert (Hi : exists k b, b < 2 /\ i = 2 * k + b).
  { exists (i / 2), (i mod 2). pose proof (Nat.div_mod i 2 ltac:(lia)). pose proof (Nat.mod_upper_bound i 2 ltac:(lia)). lia. }
  destruct Hi as (k & b & Hb & ->).
  set (f := fun i => (G + cshift (h / 2) A i) mod g * a + A) in *.
  set (e := fun i => sub_mod G (cshift (h / 2) A i) g * a + A) in *.
  change (cpairs a g (h / 2) A G) with (fun i => [f i; e i]) in Hn.
  destruct (nth_pairs _ f e l k) as [N0 N1].
  unfold df_switches, df_A, df_G, df_uid. cbn [d_a d_g D circulant].
  assert (Hg : 0 < g) by lia.
  destruct b as [|[|b]]; [| |lia].
  - rewrite Nat.add_0_r in *. rewrite N0 in Hn. destruct (nth_error l k) as [x|] eqn:El; [|discriminate].
    injection Hn; intros Ed. subst dst. unfold f. pose proof (Nat.mod_upper_bound (G + cshift (h / 2) A x) g ltac:(lia)).
    destruct (dm a ((G + cshift (h / 2) A x) mod g) A HA) as [-> ->].
    assert (C1 : circ_in A G (2 * k) A ((G + cshift (h / 2) A x) mod g) = 2 * k + 1).
    { unfold circ_in. rewrite Nat.mul_comm, Nat.mod_mul by lia. auto. }
    rewrite C1. split; [nia|]. split.
    + rewrite circ_eq by auto. fold l.
      destruct (nth_pairs _ (fun i => ((G + cshift (h / 2) A x) mod g + cshift (h / 2) A i) mod g * a + A)
         (fun i => sub_mod ((G + cshift (h / 2) A x) mod g) (cshift (h / 2) A i) g * a + A) l k) as [_ M1].
      unfold cpairs. rewrite M1, El. cbn [option_map]. rewrite sm_add by auto. f_equal. lia.
    + unfold circ_in. replace ((2 * k + 1) mod 2) with 1 by (rewrite Nat.add_comm, Nat.mul_comm, Nat.mod_add by lia; auto).
      simpl. lia.
  - rewrite N1 in Hn. destruct (nth_error l k) as [x|] eqn:El; [|discriminate].
    injection Hn; intros Ed. subst dst. unfold e. pose proof (sm_lt G (cshift (h / 2) A x) g Hg).
    destruct (dm a (sub_mod G (cshift (h / 2) A x) g) A HA) as [-> ->].
    assert (Em : (2 * k + 1) mod 2 = 1) by (rewrite Nat.add_comm, Nat.mul_comm, Nat.mod_add by lia; auto).
    assert (C1 : circ_in A G (2 * k + 1) A (sub_mod G (cshift (h / 2) A x) g) = 2 * k).
    { unfold circ_in. rewrite Em. simpl. lia. }
    rewrite C1. split; [nia|]. split.
    + rewrite circ_eq by auto. fold l.
      destruct (nth_pairs _ (fun i => (sub_mod G (cshift (h / 2) A x) g + cshift (h / 2) A i) mod g * a + A)
         (fun i => sub_mod (sub_mod G (cshift (h / 2) A x) g) (cshift (h / 2) A i) g * a + A) l k) as [M0 _].
      unfold cpairs. rewrite M0, El. cbn [option_map]. rewrite add_sm by auto. f_equal. lia.
    + unfold circ_in. rewrite Nat.mul_comm, Nat.mod_mul by lia. simpl. lia.
Qed.

Lemma in_circ : forall A G x, G < g -> In x (circ_conn a g h A G) ->
  exists i, i < g /\ x = i * a + A.
Proof.
  intros A G x HG Hin. rewrite circ_eq in Hin by auto. apply in_flat_map in Hin.
  destruct Hin as (i & _ & [<-|[<-|[]]]).
  - exists ((G + cshift (h / 2) A i) mod g). split; auto. apply Nat.mod_upper_bound; lia.
  - exists (sub_mod G (cshift (h / 2) A i) g). split; auto. apply sm_lt; lia.
Qed.
Lemma circ_len : forall A G, G < g -> length (circ_conn a g h A G) <= h.
Proof.
  intros. rewrite circ_eq by auto.
  assert (L : length (clive g (h / 2) A) <= h / 2).
  { assert (Q : forall (f : nat -> bool) l, length (filter f l) <= length l).
    { induction l; simpl; auto. destruct (f a0); simpl; lia. }
    unfold clive. etransitivity; [apply Q|]. rewrite seq_length. auto. }
  assert (E : forall l, length (flat_map (cpairs a g (h / 2) A G) l) = 2 * length l).
  { induction l; auto. simpl in *. lia. }
  rewrite E. pose proof (Nat.div_mod h 2 ltac:(lia)). lia.
Qed.
Lemma circ_reach : forall G G', G < g -> G' < g -> G <> G' -> h mod 2 = 0 -> g <= a * h + 1 ->
  exists A, A < a /\ exists x, In x (circ_conn a g h A G) /\ x / a = G'.
Proof.
  intros G G' HG HG' Hne He Hc.
  set (d := sub_mod G' G g). assert (Hd : d < g) by (apply sm_lt; lia).
  assert (Ed : (G + d) mod g = G') by (rewrite Nat.add_comm; apply add_sm; auto).
  assert (d <> 0). { intro Z. rewrite Z, Nat.add_0_r, Nat.mod_small in Ed by auto. congruence. }
  pose proof (Nat.div_mod h 2 ltac:(lia)) as Hh. rewrite He in Hh. set (half := h / 2) in *.
  assert (Hhalf : 0 < half) by nia.
  (* a shift in 1 .. a*half is some A, i *)
  assert (S : forall m, 0 < m <= a * half -> m mod g <> 0 -> exists A i, A < a /\ In i (clive g half A) /\ cshift half A i = m).
  { intros m Hm Hmg. destruct (decomp half (m - 1) Hhalf) as (q & r & E & Hr & _ & _).
    exists q, (r + 1). assert (Em : cshift half q (r + 1) = m) by (unfold cshift; lia).
    split; [nia|]. split; auto. unfold clive. apply filter_In. split; [apply in_seq; lia|].
    rewrite Em. apply negb_true_iff, Nat.eqb_neq; auto. }
  destruct (le_lt_dec d (a * half)) as [Hle|Hgt].
  - destruct (S d) as (A & i & HA & Hi & Ei); [lia|rewrite Nat.mod_small; auto|].
    exists A. split; auto. exists (G' * a + A). split; [|apply dm; auto].
    rewrite circ_eq by auto. apply in_flat_map. exists i. split; auto. fold half. left. rewrite Ei, Ed. auto.
  - destruct (S (g - d)) as (A & i & HA & Hi & Ei); [nia|rewrite Nat.mod_small; lia|].
    exists A. split; auto. exists (G' * a + A). split; [|apply dm; auto].
    rewrite circ_eq by auto. apply in_flat_map. exists i. split; auto. fold half. right. left. rewrite Ei.
    f_equal. f_equal. rewrite <- Ed. apply Nat2Z.inj. rewrite sm_Z, Nat2Z.inj_mod by lia.
    rewrite Nat2Z.inj_sub, Nat2Z.inj_add by lia.
    replace (Z.of_nat G - (Z.of_nat g - Z.of_nat d))%Z with (Z.of_nat G + Z.of_nat d + (-1) * Z.of_nat g)%Z by lia.
    apply Z_mod_plus_full.
Qed.
Lemma circ_to_in : forall G G' x c, In (x, c) (circ_to a g h G G') <->
  x < a /\ exists sid, find (fun '(c, sid) => sid / a =? G') (indexed (circ_conn a g h x G)) = Some (c, sid).
Proof.
  intros. unfold circ_to. rewrite in_flat_map. split.
  - intros (y & Hy & Hin). apply in_seq in Hy. destruct (find _ _) as [[c' sid]|] eqn:F; [|contradiction].
    destruct Hin as [E|[]]. injection E; intros; subst. split; [lia|]. eauto.
  - intros (Hx & sid & F). exists x. split; [apply in_seq; lia|]. rewrite F. left; auto.
Qed.
Lemma circ_sound : h mod 2 = 0 -> g <= a * h + 1 -> sound D.
Proof.
  intros He Hc. constructor; cbn [d_a d_g d_h d_conn d_to D circulant]; auto.
  - intros A G x HA HG Hin. apply in_circ in Hin; auto. destruct Hin as (i & Hi & ->).
    unfold df_switches. cbn [d_a d_g D circulant]. nia.
  - intros. apply circ_len; auto.
  - intros A G G' HA HG HG' Hne. right. split.
    + destruct (circ_reach G G' HG HG' Hne He Hc) as (B & HB & x & Hx & E).
      apply In_nth_error in Hx. destruct Hx as [i Hi]. apply in_indexed in Hi.
      destruct (find (fun '(c, sid) => sid / a =? G') (indexed (circ_conn a g h B G))) as [[c sid]|] eqn:F.
      * assert (In (B, c) (circ_to a g h G G')) by (apply circ_to_in; eauto). intro Z. rewrite Z in H. contradiction.
      * pose proof (find_none _ _ F _ Hi) as Q. cbn beta iota in Q. apply Nat.eqb_neq in Q. congruence.
    + intros x c Hin. apply circ_to_in in Hin. destruct Hin as (Hx & sid & F). split; auto.
      apply find_some in F. destruct F as [F1 F2]. apply in_indexed in F1. apply Nat.eqb_eq in F2.
      eapply direct_some; [eapply nth_error_In; eauto|]. exact F2.
Qed.
End Circ.

(** ** all-to-all *)
Definition skip (G g : nat) : list nat := seq 0 G ++ seq (S G) (g - S G).
Lemma skip_eq : forall X (f : nat -> list X) G g, G < g ->
  flat_map (fun x => if x =? G then [] else f x) (seq 0 g) = flat_map f (skip G g).
Proof.
  intros. replace g with (G + S (g - S G)) at 1 by lia. rewrite seq_app, flat_map_app. unfold skip.
  rewrite flat_map_app. simpl seq. cbn [flat_map]. rewrite Nat.eqb_refl. simpl. f_equal.
  - assert (E : forall n s, s + n <= G ->
      flat_map (fun x => if x =? G then [] else f x) (seq s n) = flat_map f (seq s n)).
    { induction n; intros; auto. simpl. destruct (Nat.eqb_spec s G); [lia|]. rewrite IHn by lia. auto. }
    apply E. lia.
  - assert (E : forall n s, G < s ->
      flat_map (fun x => if x =? G then [] else f x) (seq s n) = flat_map f (seq s n)).
    { induction n; intros; auto. simpl. destruct (Nat.eqb_spec s G); [lia|]. rewrite IHn by lia. auto. }
    apply E. lia.
Qed.
Lemma nth_seq : forall n s i, nth_error (seq s n) i = if i <? n then Some (s + i) else None.
Proof.
  induction n; intros; simpl. destruct i; auto. destruct i; simpl. rewrite Nat.add_0_r; auto.
  rewrite IHn. simpl. destruct (i <? n) eqn:E; destruct (S i <? S n) eqn:E';
    rewrite ?Nat.ltb_lt, ?Nat.ltb_ge in *; try lia; auto.
Qed.
Definition skidx (G x : nat) : nat := if x <? G then x else x - 1.
Lemma nth_skip : forall G g j, G < g ->
  nth_error (skip G g) j = if j <? g - 1 then Some (if j <? G then j else S j) else None.
Proof.
  intros. unfold skip. destruct (Nat.ltb_spec j G).
  - rewrite nth_error_app1 by (rewrite seq_length; auto). rewrite nth_seq.
    destruct (Nat.ltb_spec j G); try lia. destruct (Nat.ltb_spec j (g - 1)); auto; lia.
  - rewrite nth_error_app2 by (rewrite seq_length; auto). rewrite seq_length, nth_seq.
    destruct (Nat.ltb_spec (j - G) (g - S G)), (Nat.ltb_spec j (g - 1)); try lia; auto. f_equal. lia.
Qed.
Lemma nth_blocks : forall X (f : nat -> list X) cov l j c, (forall x, length (f x) = cov) -> c < cov ->
  nth_error (flat_map f l) (j * cov + c) = match nth_error l j with Some x => nth_error (f x) c | None => None end.
Proof.
  induction l; intros; simpl flat_map.
  - destruct j; simpl; auto. destruct c; auto. destruct (cov + j * cov + c); auto.
  - destruct j.
    + simpl. rewrite nth_error_app1; auto. rewrite H. auto.
    + rewrite nth_error_app2 by (rewrite H; lia). rewrite H. simpl nth_error.
      rewrite <- (IHl j c) by auto. f_equal. lia.
Qed.

Section Ata.
Variables (a g h : nat).
Hypothesis OK : alltoall_ok a g h = true.
Hypothesis Ha : 0 < a.
Let cov := covering g h.
Let st := stride a g h.
Let D := alltoall a g h.
Lemma ata_facts : 2 <= g /\ 0 < cov /\ cov * (g - 1) = h /\ st * cov = a /\ 0 < st.
Proof.
  unfold alltoall_ok in OK. rewrite !andb_true_iff, negb_true_iff, Nat.eqb_neq, !Nat.eqb_eq in OK.
  destruct OK as ((H1 & H2) & H3). fold cov in H1, H3.
  assert (2 <= g). { destruct g as [|[|g']]; [| |lia]; exfalso; apply H1; reflexivity. }
  assert (st * cov = a). { unfold st, stride. fold cov. pose proof (Nat.div_mod a cov ltac:(lia)). lia. }
  assert (cov * (g - 1) = h) by (unfold cov, covering; pose proof (Nat.div_mod h (g - 1) ltac:(lia)); lia).
  assert (0 < st) by (destruct st; lia). repeat split; auto; lia.
Qed.
Lemma ata_nth : forall A G j c, G < g -> c < cov ->
  nth_error (ata_conn a g h A G) (j * cov + c) =
    if j <? g - 1 then Some ((if j <? G then j else S j) * a + (A + st * c) mod a) else None.
Proof.
  intros. unfold ata_conn. rewrite skip_eq by auto.
  rewrite (nth_blocks _ _ cov) by (auto; intros; rewrite map_length, seq_length; auto).
  rewrite nth_skip by auto. destruct (j <? g - 1); auto.
  rewrite nth_error_map, nth_seq. fold cov. destruct (Nat.ltb_spec c cov); [|lia]. auto.
Qed.
Lemma ata_len : forall A G, G < g -> length (ata_conn a g h A G) <= h.
Proof.
  intros A G HG. destruct ata_facts as (F1 & F2 & F3 & F4 & F5).
  destruct (le_lt_dec (length (ata_conn a g h A G)) h); auto. exfalso.
  destruct (nth_error (ata_conn a g h A G) h) as [x|] eqn:E.
  - rewrite <- F3 in E at 2. replace (cov * (g - 1)) with ((g - 1) * cov + 0) in E by lia.
    rewrite ata_nth in E by lia. rewrite Nat.ltb_irrefl in E. discriminate.
  - apply nth_error_None in E. lia.
Qed.
Lemma ata_in_form : forall A G x, G < g -> In x (ata_conn a g h A G) ->
  exists G' B, G' < g /\ G' <> G /\ B < a /\ x = G' * a + B.
Proof.
  intros A G x HG Hin. unfold ata_conn in Hin. apply in_flat_map in Hin. destruct Hin as (G' & H1 & H2).
  apply in_seq in H1. destruct (Nat.eqb_spec G' G); [contradiction|]. apply in_map_iff in H2.
  destruct H2 as (c & <- & _). exists G', ((A + stride a g h * c) mod a). repeat split; auto; try lia.
  apply Nat.mod_upper_bound; lia.
Qed.
Lemma off_fwd : forall A c, A < a -> c < cov -> sub_mod ((A + st * c) mod a) A a / st = c.
Proof.
  intros A c HA Hc. destruct ata_facts as (F1 & F2 & F3 & F4 & F5).
  assert (E : sub_mod ((A + st * c) mod a) A a = st * c).
  { apply Nat2Z.inj. rewrite sm_Z, Nat2Z.inj_mod, Zminus_mod_idemp_l, Nat2Z.inj_add by lia.
    replace (Z.of_nat A + Z.of_nat (st * c) - Z.of_nat A)%Z with (Z.of_nat (st * c)) by lia.
    apply Z.mod_small. nia. }
  rewrite E, Nat.mul_comm. apply Nat.div_mul. lia.
Qed.
Lemma off_back : forall A c, A < a -> c < cov ->
  sub_mod A ((A + st * c) mod a) a / st = (cov - c) mod cov.
Proof.
  intros A c HA Hc. destruct ata_facts as (F1 & F2 & F3 & F4 & F5).
  assert (E : sub_mod A ((A + st * c) mod a) a = st * ((cov - c) mod cov)).
  { apply Nat2Z.inj. rewrite sm_Z, Nat2Z.inj_mod, Zminus_mod_idemp_r, Nat2Z.inj_add by lia.
    replace (Z.of_nat A - (Z.of_nat A + Z.of_nat (st * c)))%Z with (- Z.of_nat (st * c))%Z by lia.
    destruct (Nat.eq_dec c 0) as [->|Hz].
    - rewrite Nat.sub_0_r, Nat.mod_same, Nat.mul_0_r by lia. auto.
    - rewrite (Nat.mod_small (cov - c)) by lia.
      replace (- Z.of_nat (st * c))%Z with (Z.of_nat (st * (cov - c)) + (-1) * Z.of_nat a)%Z by nia.
      rewrite Z_mod_plus_full. apply Z.mod_small. nia. }
  rewrite E, Nat.mul_comm. apply Nat.div_mul. lia.
Qed.
Lemma ata_symmetric : symmetric D.
Proof.
  intros A G i dst HA HG Hn Hne. cbn [d_conn d_in d_a d_g D alltoall] in *.
  destruct ata_facts as (F1 & F2 & F3 & F4 & F5).
  destruct (decomp cov i F2) as (j & c & -> & Hc & _ & _).
  rewrite ata_nth in Hn by auto. destruct (Nat.ltb_spec j (g - 1)) as [Hj|Hj]; [|discriminate].
  injection Hn; intros Ed. clear Hn. subst dst.
  set (G' := if j <? G then j else S j) in *. set (B := (A + st * c) mod a) in *.
  assert (HB : B < a) by (apply Nat.mod_upper_bound; lia).
  assert (HG' : G' < g /\ G' <> G) by (unfold G'; destruct (Nat.ltb_spec j G); lia). destruct HG' as [HG' HGn].
  unfold df_switches, df_A, df_G, df_uid. cbn [d_a d_g D alltoall]. destruct (dm a G' B HB) as [-> ->].
  split; [nia|].
  set (c' := (cov - c) mod cov). assert (Hc' : c' < cov) by (apply Nat.mod_upper_bound; lia).
  set (j' := if G <? G' then G else G - 1).
  assert (Ei : ata_in a g h A G (j * cov + c) B G' = j' * cov + c').
  { unfold ata_in, j'. fold cov st. unfold B at 1 2. rewrite !off_back by auto. fold c'.
    destruct (G <? G'); auto. }
  rewrite Ei. split.
  - rewrite ata_nth by auto. assert (Hj' : j' < g - 1) by (unfold j'; destruct (Nat.ltb_spec G G'); lia).
    destruct (Nat.ltb_spec j' (g - 1)); [|lia]. f_equal.
    assert (E1 : (if j' <? G' then j' else S j') = G).
    { unfold j'. destruct (Nat.ltb_spec G G') as [X|X].
      - destruct (Nat.ltb_spec G G'); lia.
      - destruct (Nat.ltb_spec (G - 1) G'); lia. }
    rewrite E1. assert (E2 : (B + st * c') mod a = A).
    { unfold B. rewrite Nat.add_mod_idemp_l by lia. unfold c'. destruct (Nat.eq_dec c 0) as [->|Hz].
      - rewrite Nat.sub_0_r, Nat.mod_same by lia. rewrite !Nat.mul_0_r, !Nat.add_0_r. apply Nat.mod_small; auto.
      - rewrite (Nat.mod_small (cov - c)) by lia.
        replace (A + st * c + st * (cov - c)) with (A + 1 * a) by nia. rewrite Nat.mod_add by lia. apply Nat.mod_small; auto. }
    rewrite E2. lia.
  - unfold ata_in. fold cov st. unfold B. rewrite !off_fwd by auto. unfold G' in *.
    destruct (Nat.ltb_spec j G) as [X|X].
    + destruct (Nat.ltb_spec j G); [auto|lia].
    + destruct (Nat.ltb_spec (S j) G); [lia|]. f_equal. f_equal. lia.
Qed.
Lemma ata_direct : forall A G G', G < g -> G' < g -> G <> G' -> direct_ports D A G G' <> [].
Proof.
  intros A G G' HG HG' Hne. destruct ata_facts as (F1 & F2 & F3 & F4 & F5).
  apply direct_some with (x := G' * a + (A + st * 0) mod a).
  - cbn [d_conn D alltoall]. unfold ata_conn. apply in_flat_map. exists G'. split; [apply in_seq; lia|].
    destruct (Nat.eqb_spec G' G); [congruence|]. apply in_map_iff. exists 0. split; auto. apply in_seq. fold cov. lia.
  - unfold df_G. cbn [d_a D alltoall]. apply dm. apply Nat.mod_upper_bound; lia.
Qed.
Lemma ata_sound : sound D.
Proof.
  constructor; cbn [d_a d_g d_h d_conn d_to D alltoall]; auto.
  - intros A G x HA HG Hin. apply ata_in_form in Hin; auto. destruct Hin as (G' & B & H1 & _ & H2 & ->).
    unfold df_switches. cbn [d_a d_g D alltoall]. nia.
  - intros. apply ata_len; auto.
  - intros. left. apply ata_direct; auto.
Qed.
End Ata.

(** ** single link *)
Section Single.
Variables (a g : nat).
Hypothesis Ha : 0 < a.
Let D := single a g.
Lemma even_odd : forall n, n mod 2 = 0 \/ n mod 2 = 1.
Proof. intros. pose proof (Nat.mod_upper_bound n 2 ltac:(lia)). lia. Qed.
Lemma half_even : forall k, (2 * k) / 2 = k /\ (2 * k) mod 2 = 0.
Proof. intros. rewrite Nat.mul_comm. split; [apply Nat.div_mul; lia|apply Nat.mod_mul; lia]. Qed.
Lemma half_odd : forall k, (2 * k + 1) / 2 = k /\ (2 * k + 1) mod 2 = 1.
Proof. intros. rewrite Nat.mul_comm. apply dm; lia. Qed.
Lemma single_symmetric : a mod 2 = 0 -> symmetric D.
Proof.
  intros He A G i dst HA HG Hn Hne. cbn [d_conn d_in d_a d_g D single] in *.
  destruct i; [|destruct i; discriminate]. assert (Hg : 0 < g) by lia.
  pose proof (Nat.div_mod a 2 ltac:(lia)) as Hm. rewrite He in Hm. set (m := a / 2) in *.
  unfold single_conn in Hn. rewrite He in Hn. change (0 =? 1) with false in Hn. cbn [andb nth_error] in Hn.
  unfold df_switches, df_A, df_G, df_uid. cbn [d_a d_g D single].
  pose proof (Nat.div_mod A 2 ltac:(lia)) as HA2. set (k := A / 2) in *.
  destruct (even_odd A) as [E|E]; rewrite E in *.
  - cbn [Nat.eqb] in Hn. rewrite (Nat.mod_small (A + 1)) in Hn by lia.
    assert (Ed : dst = (G + (1 + k)) mod g * a + (A + 1)) by congruence. subst dst.
    assert (HB : A + 1 < a) by lia. destruct (dm a ((G + (1 + k)) mod g) (A + 1) HB) as [-> ->].
    pose proof (Nat.mod_upper_bound (G + (1 + k)) g ltac:(lia)).
    split; [nia|]. split; auto. unfold single_conn. rewrite He. change (0 =? 1) with false. cbn [andb nth_error].
    replace (A + 1) with (2 * k + 1) by lia. destruct (half_odd k) as [-> ->]. cbn [Nat.eqb].
    rewrite sm_add by auto. assert (S1 : sub_mod (2 * k + 1) 1 a = 2 * k).
    { unfold sub_mod. rewrite Z.mod_small by lia. lia. } rewrite S1. f_equal. lia.
  - cbn [Nat.eqb] in Hn. assert (S1 : sub_mod A 1 a = A - 1). { unfold sub_mod. rewrite Z.mod_small by lia. lia. }
    rewrite S1 in Hn. assert (Ed : dst = sub_mod G (1 + k) g * a + (A - 1)) by congruence. subst dst.
    assert (HB : A - 1 < a) by lia. destruct (dm a (sub_mod G (1 + k) g) (A - 1) HB) as [-> ->].
    pose proof (sm_lt G (1 + k) g Hg).
    split; [nia|]. split; auto. unfold single_conn. rewrite He. change (0 =? 1) with false. cbn [andb nth_error].
    replace (A - 1) with (2 * k) by lia. destruct (half_even k) as [-> ->]. cbn [Nat.eqb].
    rewrite add_sm by auto. rewrite Nat.mod_small by lia. f_equal. lia.
Qed.
Lemma single_symmetric_odd : a mod 2 = 1 -> (a + 1) mod g = 0 -> symmetric D.
Proof.
  intros Ho Hag A G i dst HA HG Hn Hne. cbn [d_conn d_in d_a d_g D single] in *.
  destruct i; [|destruct i; discriminate]. assert (Hg : 0 < g) by lia.
  pose proof (Nat.div_mod a 2 ltac:(lia)) as Hm. rewrite Ho in Hm. set (m := a / 2) in *.
  unfold single_conn in Hn. rewrite Ho in Hn. change (1 =? 1) with true in Hn. cbn [andb nth_error] in Hn.
  unfold df_switches, df_A, df_G, df_uid. cbn [d_a d_g D single].
  pose proof (Nat.div_mod A 2 ltac:(lia)) as HA2. set (k := A / 2) in *.
  destruct (even_odd A) as [E|E]; rewrite E in *.
  - cbn [Nat.eqb] in Hn. destruct (Nat.eqb_spec A (a - 1)) as [El|El].
    + assert (Ed : dst = (G + (1 + k)) mod g * a + A) by congruence. subst dst.
      destruct (dm a ((G + (1 + k)) mod g) A HA) as [-> ->].
      pose proof (Nat.mod_upper_bound (G + (1 + k)) g ltac:(lia)).
      split; [nia|]. split; auto. unfold single_conn. rewrite Ho, E. fold k. replace (A =? a - 1) with true by (symmetry; apply Nat.eqb_eq; auto).
      change (1 =? 1) with true. cbn [andb nth_error Nat.eqb]. rewrite Nat.add_mod_idemp_l by lia.
      replace (G + (1 + k) + (1 + k)) with (G + (a + 1)) by lia.
      replace ((G + (a + 1)) mod g) with G by (symmetry; apply plus_fix; auto). f_equal. lia.
    + rewrite (Nat.mod_small (A + 1)) in Hn by lia.
      assert (Ed : dst = (G + (1 + k)) mod g * a + (A + 1)) by congruence. subst dst.
      assert (HB : A + 1 < a) by lia. destruct (dm a ((G + (1 + k)) mod g) (A + 1) HB) as [-> ->].
      pose proof (Nat.mod_upper_bound (G + (1 + k)) g ltac:(lia)).
      split; [nia|]. split; auto. unfold single_conn. rewrite Ho. change (1 =? 1) with true.
      destruct (Nat.eqb_spec (A + 1) (a - 1)); [lia|]. cbn [andb nth_error].
      replace (A + 1) with (2 * k + 1) by lia. destruct (half_odd k) as [-> ->]. cbn [Nat.eqb].
      rewrite sm_add by auto. assert (S1 : sub_mod (2 * k + 1) 1 a = 2 * k).
      { unfold sub_mod. rewrite Z.mod_small by lia. lia. } rewrite S1. f_equal. lia.
  - cbn [Nat.eqb] in Hn. destruct (Nat.eqb_spec A (a - 1)) as [El|El]; [lia|].
    assert (S1 : sub_mod A 1 a = A - 1). { unfold sub_mod. rewrite Z.mod_small by lia. lia. }
    rewrite S1 in Hn. assert (Ed : dst = sub_mod G (1 + k) g * a + (A - 1)) by congruence. subst dst.
    assert (HB : A - 1 < a) by lia. destruct (dm a (sub_mod G (1 + k) g) (A - 1) HB) as [-> ->].
    pose proof (sm_lt G (1 + k) g Hg).
    split; [nia|]. split; auto. unfold single_conn. rewrite Ho. change (1 =? 1) with true.
    destruct (Nat.eqb_spec (A - 1) (a - 1)); [lia|]. cbn [andb nth_error].
    replace (A - 1) with (2 * k) by lia. destruct (half_even k) as [-> ->]. cbn [Nat.eqb].
    rewrite add_sm by auto. rewrite Nat.mod_small by lia. f_equal. lia.
Qed.
(** otherwise the last router of group 0 has a cable without its opposite *)
Lemma single_unpaired : a mod 2 = 1 -> 0 < g -> (a + 1) mod g <> 0 -> ~ cables_paired (df_conns D) (df_switches D).
Proof.
  intros Ho Hg Hag C. pose proof (Nat.div_mod a 2 ltac:(lia)) as Hm. rewrite Ho in Hm. set (m := a / 2) in *.
  assert (E1 : (a - 1) / 2 = m /\ (a - 1) mod 2 = 0) by (replace (a - 1) with (2 * m) by lia; apply half_even).
  destruct E1 as [E1 E0].
  assert (Hx : (1 + m) mod g <> 0).
  { intro Z. apply Hag. replace (a + 1) with ((1 + m) * 2) by lia. rewrite <- Nat.mul_mod_idemp_l, Z by lia. apply Nat.mod_0_l; lia. }
  assert (Hlast : df_A D (a - 1) = a - 1 /\ df_G D (a - 1) = 0).
  { unfold df_A, df_G. cbn [d_a D single]. rewrite Nat.mod_small, Nat.div_small by lia. auto. }
  destruct Hlast as [LA LG].
  assert (Hc : forall G, single_conn a g (a - 1) G = [(G + (1 + m)) mod g * a + (a - 1)]).
  { intros. unfold single_conn. rewrite Ho, E0, E1, !Nat.eqb_refl. reflexivity. }
  pose proof (Nat.mod_upper_bound (1 + m) g ltac:(lia)) as Hub.
  set (d := (1 + m) mod g * a + (a - 1)) in *.
  assert (Hd : df_A D d = a - 1 /\ df_G D d = (1 + m) mod g).
  { unfold df_A, df_G, d. cbn [d_a D single]. apply and_comm. apply dm. lia. }
  destruct Hd as [DA DG].
  assert (Hin : In (c_global D (a - 1) 0 d) (df_conns D (a - 1))).
  { apply (in_df D Ha). right. exists 0, d. rewrite LA, LG, DG. cbn [d_conn D single]. rewrite Hc. auto. }
  destruct (C (a - 1) _ ltac:(unfold df_switches; cbn [d_a d_g D single]; nia) Hin) as (s' & c' & _ & E & Hs' & Hin' & X1 & X2 & X3).
  unfold c_global in E, X2, X3. cbn [c_dst c_inport c_outport d_in d_a D single] in E, X2, X3. apply Nat2Z.inj in E. subst s'.
  apply (in_df D Ha) in Hin'. destruct Hin' as [(x & Hx' & _ & ->)|(h & d2 & Hn & _ & ->)].
  - unfold c_local in X2. simpl in X2. simpl in Hx'. lia.
  - unfold c_global in X1. cbn [c_dst] in X1. apply Nat2Z.inj in X1. subst d2. rewrite DA, DG in Hn. cbn [d_conn D single] in Hn.
    rewrite Hc in Hn. destruct h as [|[|h]]; [|discriminate|discriminate]. cbn [nth_error] in Hn.
    assert (Q0 : ((1 + m) mod g + (1 + m)) mod g * a + (a - 1) = a - 1) by congruence.
    assert (Q : ((1 + m) mod g + (1 + m)) mod g = 0).
    { clear - Q0 Ha. revert Q0. generalize (((1 + m) mod g + (1 + m)) mod g). intros n Q0. destruct n; auto. exfalso. simpl in Q0. lia. }
    rewrite Nat.add_mod_idemp_l in Q by lia. replace (1 + m + (1 + m)) with (a + 1) in Q by lia. congruence.
Qed.
(** the group the link of router x leads to *)
Definition sgroup (x G : nat) : nat := if x mod 2 =? 0 then (G + (1 + x / 2)) mod g else sub_mod G (1 + x / 2) g.
Definition stest (G x : nat) : Z :=
  Z.rem (Z.of_nat G + (Z.of_nat (1 + x / 2)%nat * (if x mod 2 =? 0 then 1 else -1)) + Z.of_nat g) (Z.of_nat g).
Lemma stest_sound : forall G G' x, G < g -> G' < g -> stest G x = Z.of_nat G' -> sgroup x G = G'.
Proof.
  intros G G' x HG HG' E. unfold stest in E. set (z := (_ + Z.of_nat g)%Z) in E.
  assert (Ez : (z mod Z.of_nat g)%Z = Z.of_nat G').
  { pose proof (Z.quot_rem' z (Z.of_nat g)) as Q. rewrite E in Q. rewrite Q.
    rewrite Z.add_comm, Z.mul_comm, Z_mod_plus_full. apply Z.mod_small. lia. }
  apply Nat2Z.inj. rewrite <- Ez. unfold sgroup, z. destruct (x mod 2 =? 0).
  - rewrite Nat2Z.inj_mod, Nat2Z.inj_add.
    replace (Z.of_nat G + Z.of_nat (1 + x / 2) * 1 + Z.of_nat g)%Z with (Z.of_nat G + Z.of_nat (1 + x / 2) + 1 * Z.of_nat g)%Z by lia.
    rewrite Z_mod_plus_full. auto.
  - rewrite sm_Z by lia.
    replace (Z.of_nat G + Z.of_nat (1 + x / 2) * -1 + Z.of_nat g)%Z with (Z.of_nat G - Z.of_nat (1 + x / 2) + 1 * Z.of_nat g)%Z by lia.
    rewrite Z_mod_plus_full. auto.
Qed.
Lemma stest_some : forall G G', G < g -> G' < g -> G <> G' -> g <= a + 1 ->
  exists x, x < a /\ stest G x = Z.of_nat G'.
Proof.
  intros G G' HG HG' Hne Hc.
  set (d := sub_mod G' G g). assert (Hd : d < g) by (apply sm_lt; lia).
  assert (Ed : (G + d) mod g = G') by (rewrite Nat.add_comm; apply add_sm; auto).
  assert (d <> 0). { intro Z. rewrite Z, Nat.add_0_r, Nat.mod_small in Ed by auto. congruence. }
  destruct (le_lt_dec (2 * d) (a + 1)) as [Hle|Hgt].
  - exists (2 * (d - 1)). split; [lia|]. unfold stest. destruct (half_even (d - 1)) as [-> ->]. cbn [Nat.eqb].
    replace (Z.of_nat G + Z.of_nat (1 + (d - 1)) * 1 + Z.of_nat g)%Z with (Z.of_nat (G + d) + 1 * Z.of_nat g)%Z by lia.
    rewrite Z.rem_mod_nonneg by lia. rewrite Z_mod_plus_full, <- Nat2Z.inj_mod, Ed. auto.
  - exists (2 * (g - d - 1) + 1). split; [lia|]. unfold stest. destruct (half_odd (g - d - 1)) as [-> ->]. cbn [Nat.eqb].
    replace (Z.of_nat G + Z.of_nat (1 + (g - d - 1)) * -1 + Z.of_nat g)%Z with (Z.of_nat (G + d))%Z by lia.
    rewrite Z.rem_mod_nonneg by lia. rewrite <- Nat2Z.inj_mod, Ed. auto.
Qed.
Lemma fold_last : forall X (f : nat -> bool) (v : nat -> X) l acc,
  (exists x, In x l /\ f x = true) ->
  exists x, In x l /\ f x = true /\ fold_left (fun acc x => if f x then v x else acc) l acc = v x.
Proof.
  induction l; intros acc (x & Hin & Hf); [contradiction|]. cbn [fold_left].
  destruct (existsb f l) eqn:E.
  - apply existsb_exists in E. destruct (IHl (if f a0 then v a0 else acc) E) as (y & H1 & H2 & H3).
    exists y. split; [right; auto|]. auto.
  - assert (N : forall y, In y l -> f y = false).
    { intros. destruct (f y) eqn:Fy; auto. assert (existsb f l = true) by (apply existsb_exists; eauto). congruence. }
    destruct Hin as [->|Hin]; [|rewrite N in Hf; [discriminate|auto]].
    exists x. split; [left; auto|]. split; auto. rewrite Hf. clear - N. revert N. generalize (v x) as w.
    induction l; intros; auto. cbn [fold_left]. rewrite (N a) by (left; auto). apply IHl. intros. apply N. right; auto.
Qed.
Lemma single_sound : g <= a + 1 -> sound D.
Proof.
  intros Hc. constructor; cbn [d_a d_g d_h d_conn d_to D single]; auto.
  - intros A G x HA HG [<-|[]]. unfold df_switches. cbn [d_a d_g D single].
    assert (P : forall p q, p < g -> q < a -> p * a + q < a * g) by (intros; nia).
    apply P.
    + destruct (A mod 2 =? 0); [apply Nat.mod_upper_bound; lia|apply sm_lt; lia].
    + destruct ((a mod 2 =? 1) && (A =? a - 1)); auto.
      destruct (A mod 2 =? 0); [apply Nat.mod_upper_bound; lia|apply sm_lt; lia].
  - intros A G G' HA HG HG' Hne. right.
    destruct (stest_some G G' HG HG' Hne Hc) as (x & Hx & Ex).
    destruct (fold_last _ (fun x => (stest G x =? Z.of_nat G')%Z) (fun x => (x, 0)) (seq 0 a) (0, 0)) as (y & Hy & Ey & Ef).
    { exists x. split; [apply in_seq; lia|]. apply Z.eqb_eq; auto. }
    apply in_seq in Hy. apply Z.eqb_eq in Ey.
    assert (Et : single_to a g G G' = [(y, 0)]) by (unfold single_to; f_equal; exact Ef).
    rewrite Et. split; [discriminate|]. intros z c [E|[]]. injection E; intros; subst z c. split; [lia|].
    eapply direct_some; [cbn [d_conn D single]; unfold single_conn; left; reflexivity|].
    fold (sgroup y G). rewrite (stest_sound G G' y HG HG' Ey). unfold df_G. cbn [d_a D single].
    apply dm. destruct ((a mod 2 =? 1) && (y =? a - 1)); [lia|].
    destruct (y mod 2 =? 0); [apply Nat.mod_upper_bound; lia|apply sm_lt; lia].
Qed.
End Single.
