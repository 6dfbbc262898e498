(** The scatter: its messages, and what the buffers hold in every phase. *)
From Coq Require Import List Arith Lia Bool.
From Verif Require Import ListFacts RdModel RdProof AgProof PhModel PhProof BcModel BcProof GaModel GaProof ScModel.
Import ListNotations.

(** Levels k-1, .., 0. *)
Fixpoint downs (k : nat) : list nat := match k with 0 => [] | S k => k :: downs k end.
Lemma downs_in : forall k j, In j (downs k) <-> j < k.
Proof. induction k as [|k IH]; intros j; cbn [downs In]; [lia|]. rewrite IH. lia. Qed.
Lemma downs_nodup : forall k, NoDup (downs k).
Proof. induction k as [|k IH]; cbn [downs]; constructor; [|exact IH]. rewrite downs_in. lia. Qed.
Lemma filter_length_le : forall (A : Type) (f : A -> bool) l, length (filter f l) <= length l.
Proof. intros A f l. induction l as [|x l IH]; cbn [filter length]; [lia|]. destruct (f x); cbn [length]; lia. Qed.
Lemma downs_length : forall k, length (downs k) = k.
Proof. induction k as [|k IH]; cbn [downs length]; lia. Qed.

(** Level of a rank: the largest j <= k such that 2^j divides it. *)
Fixpoint lev (k p : nat) : nat := match k with 0 => 0 | S k' => if p mod 2 ^ k =? 0 then k else lev k' p end.
Lemma lev_top : forall k p, Nat.divide (2 ^ k) p -> lev k p = k.
Proof.
  intros [|k] p H; [reflexivity|]. cbn [lev]. pose proof (pow2_pos (S k)).
  rewrite (proj2 (divide_mod p (2 ^ S k) ltac:(lia)) H). reflexivity.
Qed.
Lemma lev_below : forall k v q p, v <= k -> below q v p -> lev k p = v.
Proof.
  induction k as [|k IH]; intros v q p Hv B; [cbn; lia|]. cbn [lev]. pose proof (pow2_pos (S k)) as Hp.
  pose proof (divide_mod p (2 ^ S k) ltac:(lia)) as Hd. destruct (below_div _ _ _ B) as (D1 & D2).
  destruct (p mod 2 ^ S k =? 0).
  - assert (D : Nat.divide (2 ^ S k) p) by (apply Hd; reflexivity).
    destruct (Nat.eq_dec v (S k)) as [E|E]; [congruence|]. exfalso. apply D2.
    apply (Nat.divide_trans _ (2 ^ S k)); [apply pow2_divide_le; lia|exact D].
  - assert (v <> S k). { intros ->. destruct Hd as (_ & Hd). specialize (Hd D1). discriminate. }
    apply (IH v q); [lia|exact B].
Qed.

Lemma odd_level0 : forall a v p, below a v p -> p mod 2 = 1 -> v = 0.
Proof.
  intros a v p B H. apply below_div in B. destruct v as [|v]; [reflexivity|exfalso]. destruct B as ((x & E) & _).
  rewrite Nat.pow_succ_r' in E. rewrite E in H. replace (x * (2 * 2 ^ v)) with (x * 2 ^ v * 2) in H by lia.
  rewrite Nat.mod_mul in H; lia.
Qed.
Lemma even_level : forall a v p, below a v p -> p mod 2 = 0 -> v <> 0.
Proof.
  intros a v p B H ->. apply below_div in B. destruct B as (_ & B). apply B. apply Nat.mod_divide; [cbn; lia|exact H].
Qed.

Section Sc.
Context {T : Type}.
Variables (n root nelems : nat).
Hypothesis Hn : 2 <= n.
Hypothesis Hroot : root < n.
Variable src : nat -> T.
Variable buf : nat -> sbuf T.
Let g := scatter_prog n root nelems src buf.
Let K := log2_of n - 1.
Let mid := sc_mid n.

Lemma sc_mid_pow : mid = 2 ^ K.
Proof. exact (ga_mid_pow n root Hn Hroot). Qed.
Lemma sc_mid_lt : 1 <= mid < n.
Proof. exact (ga_mid_lt n root Hn Hroot). Qed.
Lemma sc_n_le : n <= 2 * mid.
Proof. exact (ga_n_le n root Hn Hroot). Qed.
Lemma sc_K_lt : K < n.
Proof. pose proof sc_mid_lt as H. rewrite sc_mid_pow in H. pose proof (Nat.pow_gt_lin_r 2 K ltac:(lia)). lia. Qed.

Definition sc_sph (me j : nat) : phase (sbuf T) (list T) :=
  {| ph_loc := fun b => b;
     ph_snd := [sc_send root nelems src me (K - j) (me + 2 ^ j) (2 ^ j) (Nat.min (n - (me + 2 ^ j)) (2 ^ j))]; ph_rcv := [] |}.
Definition sc_rph (me j : nat) : phase (sbuf T) (list T) :=
  {| ph_loc := fun b => b; ph_snd := [];
     ph_rcv := [sc_recv nelems (2 ^ j =? 1) (K - j) (me - 2 ^ j) (Nat.min (n - me) (2 ^ j))] |}.
Definition sc_ups (me k : nat) : list (phase (sbuf T) (list T)) :=
  map (sc_sph me) (filter (fun j => me + 2 ^ j <? n) (downs k)).

Lemma half_half : forall k, 2 ^ S k / 2 / 2 = 2 ^ k / 2.
Proof. intros k. rewrite half_pow2. reflexivity. Qed.

Lemma sc_loop_div : forall k f me, k < f -> k <= K -> Nat.divide (2 ^ k) me ->
  sc_loop n root nelems src f me (2 ^ k / 2) (S (K - k)) = sc_ups me k.
Proof.
  induction k as [|k IH]; intros f me Hf Hk D; (destruct f as [|f]; [lia|]); cbn [sc_loop].
  - reflexivity.
  - rewrite half_pow2. pose proof (pow2_pos k) as Hp. destruct (Nat.eqb_spec (2 ^ k) 0); [lia|].
    assert (D0 : Nat.divide (2 ^ k) me) by (apply (Nat.divide_trans _ (2 ^ S k)); [apply pow2_divide_le; lia|exact D]).
    rewrite (proj2 (divide_mod me (2 ^ k) ltac:(lia)) D0). destruct D as (x & D).
    assert (E : (me / 2 ^ k) mod 2 = 0).
    { rewrite D, Nat.pow_succ_r'. replace (x * (2 * 2 ^ k)) with (x * 2 * 2 ^ k) by lia. rewrite Nat.div_mul by lia. apply Nat.mod_mul. lia. }
    rewrite E. cbn [Nat.eqb]. unfold sc_ups. cbn [downs filter].
    specialize (IH f me ltac:(lia) ltac:(lia) D0).
    replace (S (K - S k)) with (K - k) by lia. rewrite IH. unfold sc_ups.
    destruct (me + 2 ^ k <? n); reflexivity.
Qed.

Lemma sc_loop_nd : forall k f me, k < f -> k <= K -> ~ Nat.divide (2 ^ k) me -> exists v, v < k /\ below (me - 2 ^ v) v me /\
  sc_loop n root nelems src f me (2 ^ k / 2) (S (K - k)) = sc_rph me v :: sc_ups me v.
Proof.
  induction k as [|k IH]; intros f me Hf Hk D; (destruct f as [|f]; [lia|]).
  - exfalso. apply D. apply Nat.divide_1_l.
  - cbn [sc_loop]. rewrite half_pow2. pose proof (pow2_pos k) as Hp. destruct (Nat.eqb_spec (2 ^ k) 0); [lia|].
    pose proof (divide_mod me (2 ^ k) ltac:(lia)) as Hd. destruct (me mod 2 ^ k =? 0).
    + assert (D0 : Nat.divide (2 ^ k) me) by (apply Hd; reflexivity). pose proof D0 as (x & Ex).
      assert (E : (me / 2 ^ k) mod 2 =? 0 = false).
      { apply Nat.eqb_neq. rewrite Ex, Nat.div_mul by lia. intros E. apply D. apply Nat.mod_divide in E; [|lia]. destruct E as (y & E).
        exists y. rewrite Nat.pow_succ_r'. lia. }
      rewrite E. replace (S (K - S k)) with (K - k) by lia. rewrite (sc_loop_div k f me) by (first [lia|exact D0]).
      exists k. split; [lia|]. split; [exact (odd_below _ _ D0 D)|]. reflexivity.
    + destruct (IH f me ltac:(lia) ltac:(lia)) as (v & Hv & B & E).
      { intros D0. apply Hd in D0. discriminate. }
      exists v. split; [lia|]. split; [exact B|]. cbn [app]. replace (S (K - S k)) with (K - k) by lia. exact E.
Qed.

Lemma sc_top : forall me, me < n -> Nat.divide (2 ^ K) me <-> me = 0 \/ me = mid.
Proof.
  intros me Hme. rewrite sc_mid_pow. pose proof sc_n_le as H2. rewrite sc_mid_pow in H2. split.
  - intros (x & ->). destruct x as [|[|x]]; [left; lia|right; lia|]. cbn [Nat.mul] in Hme. lia.
  - intros [->| ->]; [apply Nat.divide_0_r|apply Nat.divide_refl].
Qed.

Definition sc_lp (me : nat) := sc_loop n root nelems src (S n) me (mid / 2) 1.

Lemma sc_lp_cases : forall me, me < n ->
  ((me = 0 \/ me = mid) /\ sc_lp me = sc_ups me K) \/
  (me <> 0 /\ me <> mid /\ exists v, v < K /\ below (me - 2 ^ v) v me /\ sc_lp me = sc_rph me v :: sc_ups me v).
Proof.
  intros me Hme. pose proof sc_K_lt. pose proof (pow2_pos K) as Hp.
  assert (L1 : Nat.divide (2 ^ K) me -> sc_lp me = sc_ups me K).
  { intros D. unfold sc_lp. rewrite sc_mid_pow, <- (sc_loop_div K (S n) me) by (first [lia|exact D]). rewrite Nat.sub_diag. reflexivity. }
  assert (L2 : ~ Nat.divide (2 ^ K) me -> exists v, v < K /\ below (me - 2 ^ v) v me /\ sc_lp me = sc_rph me v :: sc_ups me v).
  { intros D. unfold sc_lp. rewrite sc_mid_pow. pose proof (sc_loop_nd K (S n) me ltac:(lia) (le_n _) D) as G. rewrite Nat.sub_diag in G. exact G. }
  pose proof (sc_top me Hme) as Ht. destruct (Nat.eq_dec (me mod 2 ^ K) 0) as [E|E].
  - apply Nat.mod_divide in E; [|lia]. left. split; [apply Ht; exact E|apply L1; exact E].
  - assert (D : ~ Nat.divide (2 ^ K) me) by (intros D; apply E; apply Nat.mod_divide; [lia|exact D]).
    right. split; [intros E0; apply D, Ht; auto|]. split; [intros E0; apply D, Ht; auto|]. apply L2. exact D.
Qed.

(** Messages of the tree and of the first round. *)
Definition sc_tree (t p q : nat) : Prop := exists j, j < K /\ t = K - j /\ below p j q.
Definition sc_head (t p q : nat) : Prop :=
  t = 0 /\ p = root /\ ((q = mid /\ root <> mid) \/ (q = 0 /\ root <> 0)).

Lemma sc_ups_s : forall me k, all_s (sc_ups me k) = map (fun j => (K - j, me + 2 ^ j)) (filter (fun j => me + 2 ^ j <? n) (downs k)).
Proof.
  intros me k. unfold sc_ups. induction (filter (fun j => me + 2 ^ j <? n) (downs k)) as [|x l IH]; [reflexivity|].
  cbn [map]. unfold all_s in *. cbn [flat_map]. rewrite IH. reflexivity.
Qed.
Lemma sc_ups_r : forall me k, all_r (sc_ups me k) = [].
Proof.
  intros me k. unfold sc_ups. induction (filter (fun j => me + 2 ^ j <? n) (downs k)) as [|x l IH]; [reflexivity|].
  cbn [map]. unfold all_r in *. cbn [flat_map]. rewrite IH. reflexivity.
Qed.

Lemma sc_lp_s : forall me t q, me < n -> In (t, q) (all_s (sc_lp me)) <-> sc_tree t me q /\ q < n.
Proof.
  intros me t q Hme.
  assert (G : forall k, k <= K -> (forall j, j < K -> (j < k <-> Nat.divide (2 ^ S j) me)) ->
    In (t, q) (all_s (sc_ups me k)) <-> sc_tree t me q /\ q < n).
  { intros k Hk HD. rewrite sc_ups_s, in_map_iff. split.
    - intros (j & E & Hj). injection E as <- <-. apply filter_In in Hj. destruct Hj as (Hj & Hlt). apply downs_in in Hj.
      apply Nat.ltb_lt in Hlt. split; [|exact Hlt]. exists j. split; [lia|]. split; [reflexivity|]. split; [reflexivity|].
      apply HD; lia.
    - intros ((j & Hj & -> & (-> & D)) & Hlt). exists j. split; [reflexivity|]. apply filter_In.
      split; [apply downs_in, HD; [exact Hj|exact D]|apply Nat.ltb_lt; exact Hlt]. }
  destruct (sc_lp_cases me Hme) as [(Ht & E)|(H0 & H1 & v & Hv & B & E)]; rewrite E.
  - apply G; [lia|]. intros j Hj. split; [intros _|intros _; exact Hj].
    apply (Nat.divide_trans _ (2 ^ K)); [apply pow2_divide_le; lia|apply sc_top; assumption].
  - change (sc_rph me v :: sc_ups me v) with ([sc_rph me v] ++ sc_ups me v). rewrite all_s_app. cbn [all_s flat_map skeys sc_rph ph_snd map app].
    apply G; [lia|]. intros j Hj. destruct (below_div _ _ _ B) as (D1 & D2). split.
    + intros Hjv. apply (Nat.divide_trans _ (2 ^ v)); [apply pow2_divide_le; lia|exact D1].
    + intros D. destruct (le_lt_dec v j) as [Hle|Hlt]; [|exact Hlt]. exfalso. apply D2.
      apply (Nat.divide_trans _ (2 ^ S j)); [apply pow2_divide_le; lia|exact D].
Qed.
Lemma sc_lp_r : forall me t p, me < n -> In (t, p) (all_r (sc_lp me)) <-> sc_tree t p me.
Proof.
  intros me t p Hme. destruct (sc_lp_cases me Hme) as [(Ht & E)|(H0 & H1 & v & Hv & B & E)]; rewrite E.
  - rewrite sc_ups_r. split; [intros []|]. intros (j & Hj & _ & B). apply below_div in B. apply (proj2 B).
    apply (Nat.divide_trans _ (2 ^ K)); [apply pow2_divide_le; lia|apply sc_top; assumption].
  - change (sc_rph me v :: sc_ups me v) with ([sc_rph me v] ++ sc_ups me v). rewrite all_r_app, sc_ups_r, app_nil_r.
    cbn [all_r flat_map rkeys sc_rph ph_rcv map app sc_recv fst In]. split.
    + intros [E2|[]]. injection E2 as <- <-. exists v. auto.
    + intros (j & Hj & -> & B2). left. destruct (below_unique _ _ _ _ _ B B2) as (<- & <-). reflexivity.
Qed.

Lemma attach_s : forall s l, all_s (@sc_attach T s l) = fst s :: all_s l.
Proof. intros s [|h k]; reflexivity. Qed.
Lemma attach_r : forall s l, all_r (@sc_attach T s l) = all_r l.
Proof. intros s [|h k]; reflexivity. Qed.

Definition sc_s0 (me : nat) : list (nat * nat) :=
  (if (me =? root) && negb (root =? mid) then [(0, mid)] else []) ++
  (if (me =? root) && negb (root =? 0) then [(0, 0)] else []).
Definition sc_r0 (me : nat) : list (nat * nat) :=
  (if (me =? mid) && negb (root =? mid) then [(0, root)] else []) ++
  (if (me =? 0) && negb (root =? 0) then [(0, root)] else []).

Lemma sc_all_s_eq : forall me, all_s (pg_ph g me) = sc_s0 me ++ all_s (sc_lp me).
Proof.
  intros me. cbn [g scatter_prog pg_ph]. unfold sc_phases, sc_s0. rewrite !all_s_app. cbn [all_s flat_map skeys ph_snd map app].
  rewrite app_nil_r, <- app_assoc. f_equal.
  - unfold sc_half. fold mid. destruct (root =? mid); cbn [negb]; rewrite ?andb_false_r; [reflexivity|].
    rewrite andb_true_r. destruct (me =? root), (me =? mid); reflexivity.
  - unfold sc_rest. fold mid. fold (sc_lp me). destruct (root =? 0); cbn [negb]; rewrite ?andb_false_r; [reflexivity|].
    rewrite andb_true_r. destruct (me =? root); [rewrite attach_s; reflexivity|]. destruct (me =? 0); reflexivity.
Qed.
Lemma sc_all_r_eq : forall me, all_r (pg_ph g me) = sc_r0 me ++ all_r (sc_lp me).
Proof.
  intros me. cbn [g scatter_prog pg_ph]. unfold sc_phases, sc_r0. rewrite !all_r_app. cbn [all_r flat_map rkeys ph_rcv map app].
  rewrite app_nil_r, <- app_assoc. f_equal.
  - unfold sc_half. fold mid. destruct (root =? mid); cbn [negb]; rewrite ?andb_false_r; [reflexivity|].
    rewrite andb_true_r. destruct (me =? root), (me =? mid); reflexivity.
  - unfold sc_rest. fold mid. fold (sc_lp me). destruct (Nat.eqb_spec root 0) as [E|E]; cbn [negb]; rewrite ?andb_false_r; [reflexivity|].
    rewrite andb_true_r. destruct (Nat.eqb_spec me root) as [->|].
    + rewrite attach_r. destruct (Nat.eqb_spec root 0); [contradiction|reflexivity].
    + destruct (me =? 0); reflexivity.
Qed.

Lemma sc_s0_in : forall me t q, In (t, q) (sc_s0 me) <-> sc_head t me q.
Proof.
  intros me t q. unfold sc_s0, sc_head. rewrite in_app_iff.
  destruct (Nat.eqb_spec me root) as [->|Hne]; cbn [andb]; [|cbn; intuition congruence].
  destruct (Nat.eqb_spec root mid) as [E1|E1]; destruct (Nat.eqb_spec root 0) as [E2|E2]; cbn [negb In]; intuition congruence.
Qed.
Lemma sc_r0_in : forall me t p, In (t, p) (sc_r0 me) <-> sc_head t p me.
Proof.
  intros me t p. unfold sc_r0, sc_head. rewrite in_app_iff.
  destruct (Nat.eqb_spec me mid) as [->|H1]; destruct (Nat.eqb_spec root mid) as [E1|E1];
  destruct (Nat.eqb_spec root 0) as [E2|E2]; cbn [andb negb]; rewrite ?andb_false_r, ?andb_true_r;
    try (destruct (Nat.eqb_spec mid 0) as [E3|E3]); try (destruct (Nat.eqb_spec me 0) as [E4|E4]); cbn [In]; intuition congruence.
Qed.

Lemma sc_all_s : forall me t q, me < n -> In (t, q) (all_s (pg_ph g me)) <-> (sc_tree t me q /\ q < n) \/ sc_head t me q.
Proof. intros me t q Hme. rewrite sc_all_s_eq, in_app_iff, sc_s0_in, sc_lp_s by exact Hme. tauto. Qed.
Lemma sc_all_r : forall me t p, me < n -> In (t, p) (all_r (pg_ph g me)) <-> sc_tree t p me \/ sc_head t p me.
Proof. intros me t p Hme. rewrite sc_all_r_eq, in_app_iff, sc_r0_in, sc_lp_r by exact Hme. tauto. Qed.

Lemma sc_tree_round : forall t p q, sc_tree t p q -> t <> 0.
Proof. intros t p q (j & Hj & -> & _). lia. Qed.

Lemma sc_nodup : forall p, p < n -> NoDup (all_s (pg_ph g p)) /\ NoDup (all_r (pg_ph g p)).
Proof.
  intros p Hp. pose proof sc_mid_lt as Hm. rewrite sc_all_s_eq, sc_all_r_eq. split; apply nodup_app_iff.
  - split; [|split].
    + unfold sc_s0. destruct (p =? root), (root =? mid), (root =? 0); cbn [andb negb app]; repeat constructor; cbn [In]; try tauto.
      intros [E|[]]. injection E as E. lia.
    + assert (G : forall k, NoDup (all_s (sc_ups p k))).
      { intros k. rewrite sc_ups_s. apply nodup_map_in; [|apply NoDup_filter, downs_nodup].
        intros x y _ _ E. injection E as _ E. apply (Nat.pow_inj_r 2); lia. }
      destruct (sc_lp_cases p Hp) as [(_ & E)|(_ & _ & v & _ & _ & E)]; rewrite E; apply G.
    + intros (t & q) Ha Hb. apply sc_s0_in in Ha. apply sc_lp_s in Hb; [|exact Hp]. destruct Ha as (-> & _).
      exact (sc_tree_round _ _ _ (proj1 Hb) eq_refl).
  - split; [|split].
    + unfold sc_r0. destruct (Nat.eqb_spec p mid) as [E1|]; destruct (Nat.eqb_spec p 0) as [E2|];
        destruct (root =? mid), (root =? 0); cbn [andb negb app]; repeat constructor; cbn [In]; try tauto; lia.
    + destruct (sc_lp_cases p Hp) as [(_ & E)|(_ & _ & v & _ & _ & E)]; rewrite E.
      * rewrite sc_ups_r. constructor.
      * change (sc_rph p v :: sc_ups p v) with ([sc_rph p v] ++ sc_ups p v). rewrite all_r_app, sc_ups_r, app_nil_r.
        cbn. repeat constructor. intros [].
    + intros (t & q) Ha Hb. apply sc_r0_in in Ha. apply sc_lp_r in Hb; [|exact Hp]. destruct Ha as (-> & _).
      exact (sc_tree_round _ _ _ Hb eq_refl).
Qed.

Lemma sc_balanced_single : balanced g /\ single g.
Proof.
  apply balanced_by_in; [exact sc_nodup|]. intros t p q Hp Hq. cbn [g scatter_prog pg_np] in Hp, Hq.
  rewrite sc_all_s by exact Hp. rewrite sc_all_r by exact Hq. tauto.
Qed.

Lemma sc_inside : inside g.
Proof.
  pose proof sc_mid_lt as Hm. intros t p q Hp. cbn [g scatter_prog pg_np] in Hp |- *. split; intros Hin.
  - apply sc_all_s in Hin; [|exact Hp]. destruct Hin as [(_ & H)|(_ & _ & [(-> & _)|(-> & _)])]; lia.
  - apply sc_all_r in Hin; [|exact Hp]. destruct Hin as [(j & _ & _ & B)|(_ & -> & _)]; [|exact Hroot].
    apply below_lt in B. lia.
Qed.

Lemma sc_ups_len : forall me k, length (sc_ups me k) <= k.
Proof. intros me k. unfold sc_ups. rewrite map_length. pose proof (filter_length_le nat (fun j => me + 2 ^ j <? n) (downs k)). rewrite downs_length in H. exact H. Qed.
Lemma sc_lp_len : forall me, me < n -> length (sc_lp me) <= n.
Proof.
  intros me Hme. pose proof sc_K_lt. destruct (sc_lp_cases me Hme) as [(_ & E)|(_ & _ & v & Hv & _ & E)]; rewrite E.
  - pose proof (sc_ups_len me K). lia.
  - cbn [length]. pose proof (sc_ups_len me v). lia.
Qed.
Lemma sc_len : forall me, me < n -> length (pg_ph g me) <= n + 3.
Proof.
  intros me Hme. cbn [g scatter_prog pg_ph]. unfold sc_phases. rewrite !app_length. cbn [length].
  pose proof (sc_lp_len me Hme) as Hl. pose proof sc_mid_lt.
  assert (H1 : length (@sc_half T n root nelems src me) <= 1).
  { unfold sc_half. fold mid. destruct (Nat.eqb_spec root mid); [cbn; lia|].
    destruct (Nat.eqb_spec me root); destruct (Nat.eqb_spec me mid); cbn; lia. }
  assert (H2 : length (@sc_rest T n root nelems src me) <= 1 + length (sc_lp me)).
  { unfold sc_rest. fold mid. fold (sc_lp me). destruct (root =? 0); [lia|]. destruct (me =? root); [|destruct (me =? 0); cbn [length]; lia].
    destruct (sc_lp me); cbn; lia. }
  lia.
Qed.

Definition sc_tm (p k : nat) : nat :=
  if k <=? (if p =? root then 1 else 0) then k else (p + 1) * (n + 3) + k.

(** The phases of the root that send the first messages. *)
Lemma sc_head_phase : forall t q, sc_head t root q -> exists k h, nth_error (pg_ph g root) k = Some h /\
  In (t, q) (skeys (ph_snd h)) /\ k <= 1.
Proof.
  intros t q (-> & _ & H). cbn [g scatter_prog pg_ph]. unfold sc_phases, sc_half, sc_rest. fold mid. fold (sc_lp root).
  destruct H as [(-> & Hr)|(-> & Hr)].
  - destruct (Nat.eqb_spec root mid); [contradiction|]. rewrite Nat.eqb_refl. exists 0. eexists. split; [reflexivity|].
    split; [left; reflexivity|lia].
  - destruct (Nat.eqb_spec root 0); [contradiction|]. rewrite !Nat.eqb_refl.
    assert (G : exists h, nth_error (sc_attach (sc_send root nelems src root 0 0 0 mid) (sc_lp root)
        ++ [ {| ph_loc := sc_finalize root nelems root; ph_snd := []; ph_rcv := [] |} ]) 0 = Some h /\ In (0, 0) (skeys (ph_snd h))).
    { destruct (sc_lp root) as [|h l]; eexists; (split; [reflexivity|left; reflexivity]). }
    destruct G as (h & G1 & G2).
    destruct (Nat.eqb_spec root mid) as [E|E]; cbn [app].
    + exists 0, h. split; [exact G1|]. split; [exact G2|lia].
    + exists 1, h. split; [exact G1|]. split; [exact G2|lia].
Qed.

(** A root that is not 0 and not the midpoint receives after its first phase. *)
Lemma sc_root_recv : forall k h x, root <> mid -> nth_error (pg_ph g root) k = Some h -> In x (rkeys (ph_rcv h)) -> 1 <= k.
Proof.
  intros k h x Hr Hk Hin. destruct k as [|k]; [exfalso|lia]. cbn [g scatter_prog pg_ph] in Hk. unfold sc_phases, sc_half in Hk. fold mid in Hk.
  destruct (Nat.eqb_spec root mid); [contradiction|]. rewrite Nat.eqb_refl in Hk. cbn in Hk. injection Hk as <-. destruct Hin.
Qed.

Lemma sc_ordered : ordered g sc_tm.
Proof.
  split.
  - intros p k. unfold sc_tm. destruct (p =? root).
    + destruct (Nat.leb_spec k 1); destruct (Nat.leb_spec (S k) 1); nia.
    + destruct (Nat.leb_spec k 0); destruct (Nat.leb_spec (S k) 0); nia.
  - intros p k h t q Hp Hk Hin. pose proof (all_r_of _ _ _ _ _ _ Hk Hin) as Hr. cbn [g scatter_prog pg_np] in Hp.
    apply sc_all_r in Hr; [|exact Hp]. destruct Hr as [Ht|Hh].
    + destruct Ht as (j & Hj & -> & B). pose proof (below_lt _ _ _ B) as Hlt.
      assert (Hs : In (K - j, p) (all_s (pg_ph g q))).
      { apply sc_all_s; [lia|]. left. split; [exists j; auto|exact Hp]. }
      apply all_s_in in Hs. destruct Hs as (k' & h' & Hk' & Hx & Hl). exists k', h'. split; [exact Hk'|]. split; [exact Hx|].
      pose proof (sc_len q ltac:(lia)) as Hlen.
      assert (E : sc_tm p (S k) = (p + 1) * (n + 3) + S k).
      { unfold sc_tm. destruct (Nat.eqb_spec p root) as [->|]; [|reflexivity].
        assert (Hk1 : 1 <= k).
        { apply (sc_root_recv k h (K - j, q)); [|exact Hk|exact Hin]. intros E. apply below_div in B. apply (proj2 B).
          apply (Nat.divide_trans _ (2 ^ K)); [apply pow2_divide_le; lia|apply sc_top; auto]. }
        destruct (Nat.leb_spec (S k) 1); [lia|reflexivity]. }
      rewrite E. assert (Hq : sc_tm q k' <= (q + 1) * (n + 3) + k') by (unfold sc_tm; destruct (k' <=? _); nia).
      assert ((q + 1) * (n + 3) + (n + 3) <= (p + 1) * (n + 3)) by nia. lia.
    + assert (Eq : q = root) by (destruct Hh as (_ & E & _); exact E). subst q.
      destruct (sc_head_phase t p Hh) as (k' & h' & Hk' & Hx & Hl). exists k', h'. split; [exact Hk'|]. split; [exact Hx|].
      assert (Hpr : p <> root) by (destruct Hh as (_ & _ & [(-> & ?)|(-> & ?)]); congruence).
      unfold sc_tm. rewrite Nat.eqb_refl. destruct (Nat.leb_spec k' 1); [|lia].
      destruct (Nat.eqb_spec p root); [contradiction|]. cbn [Nat.leb]. nia.
Qed.

(** * The data *)

Definition sc_blk (p : nat) : nat := Nat.min (2 ^ lev K p) (n - p).
Definition sc_good (t p q : nat) (v : list T) : Prop := v = bread src (q * nelems) (nelems * sc_blk q).
Definition res_ok (p : nat) (b : sbuf T) : Prop := forall i, i < nelems -> s_res b i = src (p * nelems + i).
Definition rcv_ok (p : nat) (b : sbuf T) : Prop := forall i, i < sc_blk p * nelems -> s_rcv b i = src (p * nelems + i).
Definition sc_keeps (p : nat) (b : sbuf T) : Prop :=
  (forall i, nelems <= i -> s_res b i = s_res (buf p) i) /\
  (forall i, mid * nelems <= i -> s_rcv b i = s_rcv (buf p) i).

Definition sc_inv (p k : nat) (b : sbuf T) : Prop :=
  sc_keeps p b /\
  (p = root -> root = 0 -> res_ok p b) /\
  (p mod 2 = 1 -> (if p =? root then 2 else 1) <= k -> res_ok p b) /\
  (p <> root -> p mod 2 = 0 -> 1 <= k -> rcv_ok p b) /\
  (p <> root -> p mod 2 = 0 -> length (pg_ph g p) <= k -> res_ok p b).

Lemma sc_blk_pos : forall p, p < n -> 1 <= sc_blk p.
Proof. intros p Hp. unfold sc_blk. pose proof (pow2_pos (lev K p)). lia. Qed.
Lemma sc_blk_le : forall p, p < n -> sc_blk p <= mid.
Proof.
  intros p Hp. unfold sc_blk. rewrite sc_mid_pow.
  assert (G : forall k, lev k p <= k).
  { induction k as [|k IH]; cbn [lev]; [lia|]. destruct (p mod 2 ^ S k =? 0); lia. }
  pose proof (Nat.pow_le_mono_r 2 (lev K p) K ltac:(lia) (G K)). lia.
Qed.
Lemma sc_blk_below : forall a v p, v < K -> below a v p -> sc_blk p = Nat.min (n - p) (2 ^ v).
Proof. intros a v p Hv B. unfold sc_blk. rewrite (lev_below K v a p) by (first [lia|exact B]). lia. Qed.
Lemma sc_blk_zero : sc_blk 0 = mid.
Proof. unfold sc_blk. rewrite lev_top by apply Nat.divide_0_r. rewrite <- sc_mid_pow. pose proof sc_mid_lt. lia. Qed.
Lemma sc_blk_mid : sc_blk mid = Nat.min (n - mid) mid.
Proof. unfold sc_blk. rewrite lev_top by (apply sc_top; [apply sc_mid_lt|auto]). rewrite <- sc_mid_pow. lia. Qed.

Hypothesis Hn3 : 3 <= n.
Hypothesis Hodd : root = 0 \/ root mod 2 = 1.

Lemma sc_K_pos : 1 <= K.
Proof.
  pose proof sc_n_le as H. rewrite sc_mid_pow in H. destruct K; [cbn in H; lia|lia].
Qed.
Lemma sc_mid_even : mid mod 2 = 0.
Proof.
  rewrite sc_mid_pow. pose proof sc_K_pos. replace K with (S (K - 1)) by lia. rewrite Nat.pow_succ_r', Nat.mul_comm. apply Nat.mod_mul. lia.
Qed.
Lemma sc_root_ne_mid : root <> mid.
Proof. pose proof sc_mid_even. pose proof sc_mid_lt. intros E. destruct Hodd as [H1|H1]; [lia|congruence]. Qed.

(** A receive into the receive buffer or into the result. *)
Lemma store_rcv : forall p c b, p < n -> sc_keeps p b -> c = sc_blk p ->
  let l := firstn (nelems * c) (bread src (p * nelems) (nelems * sc_blk p)) in
  let b' := set_rcv b (bwrite (s_rcv b) 0 l) in sc_keeps p b' /\ rcv_ok p b'.
Proof.
  intros p c b Hp (K1 & K2) -> l b'. unfold b', l. rewrite firstn_all2 by (rewrite bread_length; lia). split; [split|]; cbn [set_rcv s_rcv s_res].
  - exact K1.
  - intros i Hi. rewrite bwrite_out; [apply K2; exact Hi|]. right. rewrite bread_length. pose proof (sc_blk_le p Hp). nia.
  - intros i Hi. cbn [set_rcv s_rcv]. rewrite (bwrite_in _ _ _ _ (src 0)) by (rewrite bread_length; lia). rewrite nth_bread by lia. f_equal. lia.
Qed.
Lemma store_res : forall p b, p < n -> sc_keeps p b -> sc_blk p = 1 ->
  let l := firstn (nelems * 1) (bread src (p * nelems) (nelems * sc_blk p)) in
  let b' := set_res b (bwrite (s_res b) 0 l) in sc_keeps p b' /\ res_ok p b'.
Proof.
  intros p b Hp (K1 & K2) Hb l b'. unfold b', l. rewrite Hb, firstn_all2 by (rewrite bread_length; lia). split; [split|]; cbn [set_res s_rcv s_res].
  - intros i Hi. rewrite bwrite_out; [apply K1; exact Hi|]. right. rewrite bread_length. lia.
  - exact K2.
  - intros i Hi. cbn [set_res s_res]. rewrite (bwrite_in _ _ _ _ (src 0)) by (rewrite bread_length; lia). rewrite nth_bread by lia. f_equal. lia.
Qed.

(** The phases of a rank other than the root. *)
Lemma sc_other_phases : forall p, p < n -> p <> root -> exists bl rnd q k,
  pg_ph g p = {| ph_loc := fun b => b; ph_snd := []; ph_rcv := [sc_recv nelems bl rnd q (sc_blk p)] |} :: sc_ups p k ++
              [ {| ph_loc := sc_finalize root nelems p; ph_snd := []; ph_rcv := [] |} ] /\
  k <= K /\ lev K p = k /\ bl = (p mod 2 =? 1).
Proof.
  intros p Hp Hne. pose proof sc_mid_lt as Hm. pose proof sc_root_ne_mid as Hrm. pose proof sc_mid_even as Hme. pose proof sc_K_pos as HK.
  cbn [g scatter_prog pg_ph]. unfold sc_phases, sc_half, sc_rest. fold mid. fold (sc_lp p).
  destruct (Nat.eqb_spec root mid); [contradiction|]. destruct (Nat.eqb_spec p root); [contradiction|]. cbn [app].
  destruct (sc_lp_cases p Hp) as [([E0|E0] & E)|(H0 & H1 & v & Hv & B & E)]; rewrite E.
  - subst p. destruct (Nat.eqb_spec 0 mid); [lia|]. destruct (Nat.eqb_spec root 0); [lia|]. cbn [Nat.eqb app].
    exists false, 0, root, K. rewrite sc_blk_zero. split; [reflexivity|]. split; [lia|].
    split; [apply lev_top, Nat.divide_0_r|reflexivity].
  - subst p. rewrite Nat.eqb_refl. destruct (Nat.eqb_spec mid 0); [lia|]. exists false, 0, root, K. rewrite sc_blk_mid, Hme.
    split; [destruct (root =? 0); reflexivity|]. split; [lia|]. split; [|reflexivity].
    apply lev_top, sc_top; [exact Hp|auto].
  - destruct (Nat.eqb_spec p mid); [contradiction|]. destruct (Nat.eqb_spec p 0); [contradiction|].
    exists (2 ^ v =? 1), (K - v), (p - 2 ^ v), v. rewrite (sc_blk_below _ _ _ Hv B).
    split; [destruct (root =? 0); reflexivity|]. split; [lia|]. split; [apply (lev_below K v (p - 2 ^ v)); [lia|exact B]|].
    destruct v as [|v].
    + change (2 ^ 0 =? 1) with true. symmetry. apply Nat.eqb_eq. pose proof (even_below _ _ _ B) as Hev. change (negb (0 =? 0)) with false in Hev. apply Nat.eqb_neq in Hev.
      pose proof (Nat.mod_upper_bound p 2 ltac:(lia)). lia.
    + pose proof (even_below _ _ _ B) as Hev. cbn [Nat.eqb negb] in Hev. apply Nat.eqb_eq in Hev. rewrite Hev.
      apply Nat.eqb_neq. pose proof (Nat.pow_gt_lin_r 2 (S v) ltac:(lia)). lia.
Qed.

Lemma sc_root_zero : root = 0 -> pg_ph g root = {| ph_loc := fun b => b; ph_snd := [sc_send root nelems src root 0 mid mid (Nat.min (n - mid) mid)]; ph_rcv := [] |} ::
    sc_ups root K ++ [ {| ph_loc := sc_finalize root nelems root; ph_snd := []; ph_rcv := [] |} ].
Proof.
  intros E. pose proof sc_mid_lt as Hm. cbn [g scatter_prog pg_ph]. unfold sc_phases, sc_half, sc_rest. fold mid. fold (sc_lp root).
  destruct (Nat.eqb_spec root mid); [lia|]. rewrite Nat.eqb_refl.
  destruct (Nat.eqb_spec root 0); [|contradiction].
  destruct (sc_lp_cases root Hroot) as [(_ & El)|(H0 & _)]; [|contradiction]. rewrite El. reflexivity.
Qed.

Lemma sc_root_odd : root mod 2 = 1 -> exists rnd q,
  pg_ph g root = [ {| ph_loc := fun b => b; ph_snd := [sc_send root nelems src root 0 mid mid (Nat.min (n - mid) mid)]; ph_rcv := [] |};
                   {| ph_loc := fun b => b; ph_snd := [sc_send root nelems src root 0 0 0 mid];
                      ph_rcv := [sc_recv nelems true rnd q 1] |};
                   {| ph_loc := sc_finalize root nelems root; ph_snd := []; ph_rcv := [] |} ] /\ sc_blk root = 1.
Proof.
  intros Ho. pose proof sc_mid_lt as Hm. pose proof sc_root_ne_mid as Hrm. assert (Hr0 : root <> 0) by (intros E; rewrite E in Ho; discriminate).
  cbn [g scatter_prog pg_ph]. unfold sc_phases, sc_half, sc_rest. fold mid. fold (sc_lp root).
  destruct (Nat.eqb_spec root mid); [contradiction|]. rewrite Nat.eqb_refl. destruct (Nat.eqb_spec root 0); [contradiction|].
  destruct (sc_lp_cases root Hroot) as [([E0|E0] & _)|(_ & _ & v & Hv & B & El)]; [contradiction|contradiction|].
  assert (v = 0) by (apply (odd_level0 _ _ _ B Ho)). subst v. rewrite El. pose proof (sc_blk_below _ _ _ Hv B) as Hb.
  change (2 ^ 0) with 1 in *. exists (K - 0), (root - 1).
  unfold sc_rph. change (2 ^ 0) with 1. replace (Nat.min (n - root) 1) with 1 in * by lia. split; [reflexivity|exact Hb].
Qed.

Lemma sc_ups_nth : forall p k i h, nth_error (sc_ups p k) i = Some h -> exists j, h = sc_sph p j /\ j < k /\ p + 2 ^ j < n.
Proof.
  intros p k i h H. apply nth_error_In in H. unfold sc_ups in H. apply in_map_iff in H. destruct H as (j & <- & Hj).
  apply filter_In in Hj. destruct Hj as (Hj & Hlt). apply downs_in in Hj. apply Nat.ltb_lt in Hlt. eauto.
Qed.

Lemma sc_annotated : annotated g sc_inv sc_good.
Proof.
  pose proof sc_mid_lt as Hm. pose proof sc_root_ne_mid as Hrm.
  split.
  - intros p Hp. cbn [g scatter_prog pg_init pg_np] in Hp |- *. unfold sc_init. fold mid.
    assert (Hlen : 0 < length (pg_ph g p)).
    { cbn [g scatter_prog pg_ph]. unfold sc_phases. rewrite !app_length. cbn [length]. lia. }
    destruct (Nat.eqb_spec p root) as [->|Hne].
    + destruct (Nat.eqb_spec root 0) as [E|E]; cbn [negb].
      * split.
        { split; cbn [set_res s_res s_rcv]; [|reflexivity]. intros i Hi. apply bwrite_out. right. rewrite bread_length. lia. }
        split.
        { intros _ _ i Hi. cbn [set_res s_res]. rewrite (bwrite_in _ _ _ _ (src 0)) by (rewrite bread_length; lia). rewrite nth_bread by lia.
          f_equal. rewrite E. lia. }
        split; [rewrite Nat.eqb_refl; lia|]. split; intros; lia.
      * destruct (Nat.eqb_spec root mid); [contradiction|]. split; [split; reflexivity|]. split; [intros _ H; contradiction|].
        split; [rewrite Nat.eqb_refl; lia|]. split; intros; lia.
    + split; [split; reflexivity|]. split; [intros; contradiction|].
      split; [destruct (Nat.eqb_spec p root); [contradiction|]; lia|]. split; intros; lia.
  - intros p k h Hp Hk. cbn [g scatter_prog pg_np] in Hp.
    destruct (Nat.eq_dec p root) as [->|Hne].
    + destruct Hodd as [Hr0|Ho].
      * (* the root is 0 *)
        assert (Hstep : forall k b, sc_inv root k b -> sc_inv root (S k) b).
        { intros k0 b (I1 & I2 & _). split; [exact I1|]. split; [exact I2|]. split; [|split; intros; contradiction].
          intros H. rewrite Hr0 in H. discriminate. }
        assert (Hsnd : forall x, In x (ph_snd h) -> exists t q off c, x = sc_send root nelems src root t q off c /\ off = q /\ c = sc_blk q).
        { rewrite sc_root_zero in Hk by exact Hr0. destruct k as [|k]; cbn [nth_error] in Hk.
          - injection Hk as <-. intros x [<-|[]]. exists 0, mid, mid, (Nat.min (n - mid) mid).
            split; [reflexivity|]. split; [reflexivity|]. symmetry. apply sc_blk_mid.
          - intros x Hx. destruct (le_lt_dec (length (sc_ups root K)) k) as [Hle|Hlt].
            + rewrite nth_error_app2 in Hk by exact Hle. destruct (k - _) as [|[|?]]; cbn [nth_error] in Hk; try discriminate. injection Hk as <-. destruct Hx.
            + rewrite nth_error_app1 in Hk by exact Hlt. apply sc_ups_nth in Hk. destruct Hk as (j & -> & Hj & Hjn). destruct Hx as [<-|[]].
              exists (K - j), (root + 2 ^ j), (2 ^ j), (Nat.min (n - (root + 2 ^ j)) (2 ^ j)). split; [reflexivity|].
              split; [lia|]. symmetry. apply (sc_blk_below root); [exact Hj|]. split; [reflexivity|].
              apply (Nat.divide_trans _ (2 ^ K)); [apply pow2_divide_le; lia|apply sc_top; auto]. }
        assert (Hrcv : ph_rcv h = [] /\ forall b, ph_loc h b = b).
        { rewrite sc_root_zero in Hk by exact Hr0. destruct k as [|k]; cbn [nth_error] in Hk; [injection Hk as <-; auto|].
          destruct (le_lt_dec (length (sc_ups root K)) k) as [Hle|Hlt].
          - rewrite nth_error_app2 in Hk by exact Hle. destruct (k - _) as [|[|?]]; cbn [nth_error] in Hk; try discriminate. injection Hk as <-.
            split; [reflexivity|]. intros b. cbn [ph_loc]. unfold sc_finalize. rewrite Nat.eqb_refl. reflexivity.
          - rewrite nth_error_app1 in Hk by exact Hlt. apply sc_ups_nth in Hk. destruct Hk as (j & -> & _). auto. }
        destruct Hrcv as (Hrcv & Hloc). split.
        -- intros l m t q rd _ Hin. destruct (Hsnd _ Hin) as (t' & q' & off & c & E & -> & ->). injection E as -> -> ->.
           unfold sc_good. rewrite Nat.eqb_refl. reflexivity.
        -- intros m Hw. eapply within_none in Hw; [|exact Hrcv]. destruct Hw as (_ & m0 & Hi & ->). rewrite Hloc. apply Hstep. exact Hi.
      * (* the root is odd *)
        destruct (sc_root_odd Ho) as (rnd & q0 & Eph & Hb1). assert (Hr0 : root <> 0) by (intros E; rewrite E in Ho; discriminate).
        assert (Hmk : forall k b, sc_keeps root b -> (2 <= k -> res_ok root b) -> sc_inv root k b).
        { intros k0 b H1 H2. split; [exact H1|]. split; [intros _ H; contradiction|]. rewrite Nat.eqb_refl.
          split; [intros _; exact H2|]. split; intros; contradiction. }
        rewrite Eph in Hk. destruct k as [|[|[|k]]]; cbn [nth_error] in Hk; [| | |destruct k; discriminate]; injection Hk as <-.
        -- split.
           ++ intros l m t q rd _ [E|[]]. injection E as <- <- <-. unfold sc_good. rewrite Nat.eqb_refl, sc_blk_mid. reflexivity.
           ++ intros m Hw. eapply within_none in Hw; [|reflexivity]. destruct Hw as (_ & m0 & (I1 & _) & ->). apply Hmk; [exact I1|lia].
        -- split.
           ++ intros l m t q rd _ [E|[]]. injection E as <- <- <-. unfold sc_good. rewrite Nat.eqb_refl, sc_blk_zero. reflexivity.
           ++ intros m Hw. eapply within_one in Hw; [|reflexivity]. destruct Hw as (m0 & (I1 & _) & [(E & _)|(_ & v & Hv & ->)]); [discriminate|].
              cbn [ph_loc]. unfold sc_good in Hv. subst v. destruct (store_res root m0 Hroot I1 Hb1) as (S1 & S2).
              apply Hmk; [exact S1|intros _; exact S2].
        -- split; [intros l m t q rd _ []|]. intros m Hw. eapply within_none in Hw; [|reflexivity].
           destruct Hw as (_ & m0 & (I1 & _ & I3 & _) & ->). cbn [ph_loc]. unfold sc_finalize. rewrite Nat.eqb_refl. cbn [orb].
           apply Hmk; [exact I1|]. intros _. rewrite Nat.eqb_refl in I3. apply I3; [exact Ho|lia].
    + (* another rank *)
      destruct (sc_other_phases p Hp Hne) as (bl & rnd & q0 & kk & Eph & Hkk & Hlev & Hbl).
      assert (Hlen : length (pg_ph g p) = S (length (sc_ups p kk) + 1)) by (rewrite Eph; cbn [length]; rewrite app_length; reflexivity).
      assert (Hpar : p mod 2 = 0 \/ p mod 2 = 1) by (pose proof (Nat.mod_upper_bound p 2 ltac:(lia)); lia).
      rewrite Eph in Hk. destruct k as [|k].
      * cbn [nth_error] in Hk. injection Hk as <-. split; [intros l m t q rd _ []|]. intros m Hw.
        eapply within_one in Hw; [|reflexivity]. destruct Hw as (m0 & (I1 & _) & [(E & _)|(_ & v & Hv & ->)]); [discriminate|].
        cbn [ph_loc]. unfold sc_good in Hv. subst v. cbv zeta. rewrite Hbl. destruct Hpar as [Hev|Ho].
        -- rewrite Hev. cbn [Nat.eqb]. destruct (store_rcv p (sc_blk p) m0 Hp I1 eq_refl) as (S1 & S2).
           split; [exact S1|]. split; [intros; contradiction|]. split; [intros; lia|]. split; [intros; exact S2|].
           intros; lia.
        -- rewrite Ho. cbn [Nat.eqb].
           assert (Hb1 : sc_blk p = 1).
           { destruct (sc_lp_cases p Hp) as [([E0|E0] & _)|(_ & _ & v & Hv & B & _)].
             - subst p. discriminate.
             - exfalso. pose proof sc_mid_even. congruence.
             - pose proof (odd_level0 _ _ _ B Ho). subst v. rewrite (sc_blk_below _ _ _ Hv B). cbn. lia. }
           destruct (store_res p m0 Hp I1 Hb1) as (S1 & S2). rewrite <- Hb1 in S1 at 1. rewrite <- Hb1 in S2 at 1.
           split; [exact S1|]. split; [intros; contradiction|]. split; [intros; exact S2|]. split; intros; lia.
      * cbn [nth_error] in Hk. destruct (le_lt_dec (length (sc_ups p kk)) k) as [Hle|Hlt].
        -- rewrite nth_error_app2 in Hk by exact Hle. destruct (k - length (sc_ups p kk)) as [|[|?]] eqn:Ek; cbn in Hk; try discriminate.
           injection Hk as <-. split; [intros l m t q rd _ []|]. intros m Hw. eapply within_none in Hw; [|reflexivity].
           destruct Hw as (_ & m0 & (I1 & I2 & I3 & I4 & I5) & ->). cbn [ph_loc]. unfold sc_finalize.
           destruct (Nat.eqb_spec p root); [contradiction|]. cbn [orb].
           assert (Ir : (p =? root) = false) by (apply Nat.eqb_neq; exact Hne).
           destruct Hpar as [Hev|Ho].
           ++ rewrite Hev. cbn [Nat.eqb negb]. specialize (I4 Hne Hev ltac:(lia)). destruct I1 as (K1 & K2).
              assert (R : res_ok p (set_res m0 (bwrite (s_res m0) 0 (bread (s_rcv m0) 0 nelems)))).
              { intros i Hi. cbn [set_res s_res]. rewrite (bwrite_in _ _ _ _ (src 0)) by (rewrite bread_length; lia). rewrite nth_bread by lia.
                rewrite Nat.sub_0_r, Nat.add_0_l. apply I4. pose proof (sc_blk_pos p Hp). nia. }
              split.
              { split; cbn [set_res s_res s_rcv]; [|exact K2]. intros i Hi. rewrite bwrite_out; [apply K1; exact Hi|]. right. rewrite bread_length. lia. }
              split; [intros; contradiction|]. split; [intros; lia|]. split; [intros; exact I4|]. intros; exact R.
           ++ rewrite Ho. cbn [Nat.eqb negb]. split; [exact I1|]. split; [exact I2|]. rewrite Ir. split; [intros; apply I3; [exact Ho|lia]|].
              split; intros; lia.
        -- rewrite nth_error_app1 in Hk by exact Hlt. apply sc_ups_nth in Hk. destruct Hk as (j & -> & Hj & Hjn).
           assert (G : forall l m, within sc_inv sc_good p (S k) (sc_sph p j) l m -> sc_inv p (S k) m).
           { intros l m Hw. eapply within_none in Hw; [|reflexivity]. destruct Hw as (_ & m0 & Hi & ->). exact Hi. }
           assert (Hjl : Nat.divide (2 ^ S j) p).
           { destruct (sc_lp_cases p Hp) as [(Ht & _)|(_ & _ & v & Hv & B & _)].
             - apply (Nat.divide_trans _ (2 ^ K)); [apply pow2_divide_le; lia|apply sc_top; assumption].
             - assert (v = kk) by (rewrite <- Hlev; symmetry; apply (lev_below K v (p - 2 ^ v)); [lia|exact B]). subst v.
               apply below_div in B. apply (Nat.divide_trans _ (2 ^ kk)); [apply pow2_divide_le; lia|exact (proj1 B)]. }
           assert (Hev : p mod 2 = 0).
           { apply Nat.mod_divide; [lia|]. apply (Nat.divide_trans _ (2 ^ S j)); [|exact Hjl]. exists (2 ^ j). rewrite Nat.pow_succ_r'. lia. }
           split.
           ++ intros l m t q rd Hw [E|[]]. injection E as <- <- <-. apply G in Hw. destruct Hw as (_ & _ & _ & I4 & _).
              specialize (I4 Hne Hev ltac:(lia)). destruct (Nat.eqb_spec p root); [contradiction|]. unfold sc_good.
              rewrite (sc_blk_below p j (p + 2 ^ j)); [|lia|split; [reflexivity|exact Hjl]].
              set (c := Nat.min (n - (p + 2 ^ j)) (2 ^ j)).
              assert (Hc : 2 ^ j + c <= sc_blk p).
              { unfold sc_blk. rewrite Hlev. pose proof (Nat.pow_le_mono_r 2 (S j) kk ltac:(lia) Hj) as Hpw. rewrite Nat.pow_succ_r' in Hpw. unfold c. lia. }
              unfold bread. apply nth_ext with (d := src 0) (d' := src 0); rewrite !map_length, !seq_length; [reflexivity|].
              intros i Hi. assert (Eb : forall (b : nat -> T) o, nth i (map b (seq o (nelems * c))) (src 0) = b (o + i)).
              { intros b o. exact (nth_bread b o (nelems * c) i (src 0) Hi). }
              rewrite !Eb. rewrite I4 by nia. f_equal. lia.
           ++ intros m Hw. apply G in Hw. destruct Hw as (I1 & I2 & I3 & I4 & I5). split; [exact I1|]. split; [exact I2|].
              destruct (Nat.eqb_spec p root); [contradiction|]. split; [intros; lia|]. split; [intros; apply I4; auto; lia|]. intros; lia.
Qed.
End Sc.
