(** The gather: its messages, and what the buffers hold in every phase. *)
From Coq Require Import List Arith Lia Bool.
From Verif Require Import ListFacts RdModel RdProof AgProof PhModel PhProof BcModel BcProof GaModel.
Import ListNotations.

(** A schedule whose messages are told apart by round, sender and receiver is
    balanced when every send has its receive and conversely. *)
Lemma cnt_nodup : forall t q l, NoDup l -> cnt t q l <= 1.
Proof.
  intros t q l H. induction H as [|(t' & q') l Hx H IH]; [cbn; lia|]. rewrite cnt_cons.
  destruct (Nat.eqb_spec t' t) as [->|]; cbn [andb]; [|lia]. destruct (Nat.eqb_spec q' q) as [->|]; [|lia].
  destruct (cnt t q l) eqn:E; [lia|]. exfalso. apply Hx. apply cnt_in. lia.
Qed.

Lemma balanced_by_in : forall (St Msg : Type) (g : prog St Msg),
  (forall p, p < pg_np g -> NoDup (all_s (pg_ph g p)) /\ NoDup (all_r (pg_ph g p))) ->
  (forall t p q, p < pg_np g -> q < pg_np g -> In (t, q) (all_s (pg_ph g p)) <-> In (t, p) (all_r (pg_ph g q))) ->
  balanced g /\ single g.
Proof.
  intros St Msg g Hn Hi. split.
  - intros t p q Hp Hq. pose proof (Hi t p q Hp Hq) as H. rewrite !cnt_in in H.
    pose proof (cnt_nodup t q _ (proj1 (Hn p Hp))). pose proof (cnt_nodup t p _ (proj2 (Hn q Hq))). lia.
  - intros t p q Hp. apply cnt_nodup. exact (proj1 (Hn p Hp)).
Qed.

Lemma all_s_in : forall (St Msg : Type) (l : list (phase St Msg)) x, In x (all_s l) ->
  exists k h, nth_error l k = Some h /\ In x (skeys (ph_snd h)) /\ k < length l.
Proof.
  intros St Msg l x H. apply in_flat_map in H. destruct H as (h & Hh & Hx). apply In_nth_error in Hh.
  destruct Hh as (k & Hk). exists k, h. split; [exact Hk|]. split; [exact Hx|]. apply nth_error_Some. congruence.
Qed.
Lemma all_r_of : forall (St Msg : Type) (l : list (phase St Msg)) k h x, nth_error l k = Some h ->
  In x (rkeys (ph_rcv h)) -> In x (all_r l).
Proof. intros St Msg l k h x Hk Hx. apply in_flat_map. exists h. split; [exact (nth_error_In _ _ Hk)|exact Hx]. Qed.

Lemma all_s_app : forall (St Msg : Type) (a b : list (phase St Msg)), all_s (a ++ b) = all_s a ++ all_s b.
Proof. intros. apply flat_map_app. Qed.
Lemma all_r_app : forall (St Msg : Type) (a b : list (phase St Msg)), all_r (a ++ b) = all_r a ++ all_r b.
Proof. intros. apply flat_map_app. Qed.

Lemma pow2_divide_le : forall a b, a <= b -> Nat.divide (2 ^ a) (2 ^ b).
Proof. intros a b H. exists (2 ^ (b - a)). rewrite <- Nat.pow_add_r. f_equal. lia. Qed.

Lemma odd_below : forall p r, Nat.divide (2 ^ r) p -> ~ Nat.divide (2 ^ S r) p -> below (p - 2 ^ r) r p.
Proof.
  intros p r (x & Hx) Hnd. assert (Hodd : exists y, x = 2 * y + 1).
  { destruct (Nat.Even_or_Odd x) as [(y & E)|(y & E)]; [|exists y; exact E].
    exfalso. apply Hnd. exists y. rewrite Nat.pow_succ_r'. lia. }
  destruct Hodd as (y & ->). pose proof (pow2_pos r). split; [lia|]. exists y. rewrite Nat.pow_succ_r'.
  assert (E : p = y * (2 * 2 ^ r) + 2 ^ r) by lia. rewrite E. lia.
Qed.

Lemma below_div : forall q t p, below q t p -> Nat.divide (2 ^ t) p /\ ~ Nat.divide (2 ^ S t) p.
Proof.
  intros q t p (E & D). split.
  - rewrite E. apply Nat.divide_add_r; [|apply Nat.divide_refl].
    apply (Nat.divide_trans _ (2 ^ S t)); [apply pow2_divide_le; lia|exact D].
  - intros D2. assert (D3 : Nat.divide (2 ^ S t) (2 ^ t)).
    { replace (2 ^ t) with (p - q) by lia. apply Nat.divide_sub_r; assumption. }
    apply Nat.divide_pos_le in D3; [|apply pow2_pos]. rewrite Nat.pow_succ_r' in D3. pose proof (pow2_pos t). lia.
Qed.

Lemma divide_mod : forall a b, b <> 0 -> (a mod b =? 0) = true <-> Nat.divide b a.
Proof. intros a b Hb. rewrite Nat.eqb_eq. apply Nat.mod_divide. exact Hb. Qed.

Section Ga.
Context {T : Type}.
Variables (n root nelems : nat).
Hypothesis Hn : 2 <= n.
Hypothesis Hroot : root < n.
Variables (src buf : nat -> nat -> T).
Let g := gather_prog n root nelems src buf.
Let L := ga_log n.
Let mid := ga_mid n.

(** Number of rounds of the tree. *)
Definition ga_rounds : nat := if root =? 0 then ga_log n else ga_log n - 1.

Lemma ga_log_pos : 1 <= L.
Proof. unfold L, ga_log. destruct (ctree_ok n) as (_ & H & _). destruct (log2_of n); [cbn in H; lia|lia]. Qed.
Lemma ga_mid_pow : mid = 2 ^ (L - 1).
Proof.
  pose proof ga_log_pos as H. unfold mid, ga_mid, midpoint_of, L, ga_log in *.
  destruct (ctree_ok n) as (E & _). rewrite E. replace (log2_of n) with (S (log2_of n - 1)) at 1 by lia. apply half_pow2.
Qed.
Lemma ga_mid_lt : 1 <= mid < n.
Proof.
  rewrite ga_mid_pow. pose proof ga_log_pos as H. pose proof (pow2_pos (L - 1)). unfold L, ga_log in *.
  destruct (ctree_ok n) as (_ & _ & [E|E]); lia.
Qed.
Lemma ga_n_le : n <= 2 * mid.
Proof.
  rewrite ga_mid_pow. pose proof ga_log_pos as H. rewrite <- Nat.pow_succ_r'. replace (S (L - 1)) with L by lia.
  unfold L, ga_log. destruct (ctree_ok n) as (_ & E & _). exact E.
Qed.
Lemma ga_rounds_eq : (root = 0 /\ ga_rounds = L) \/ (root <> 0 /\ ga_rounds = L - 1).
Proof. unfold ga_rounds. destruct (Nat.eqb_spec root 0); [left|right]; auto. Qed.

Lemma ga_maxgap_lt : forall r, (ga_maxgap n root <? 2 ^ r) = (ga_rounds <=? r).
Proof.
  intros r. unfold ga_maxgap, ga_rounds. fold mid. fold L. rewrite ga_mid_pow. pose proof ga_log_pos as HL.
  assert (G : forall k, (2 ^ k <? 2 ^ r) = (S k <=? r)).
  { intros k. destruct (Nat.leb_spec (S k) r) as [H|H].
    - apply Nat.ltb_lt. apply Nat.pow_lt_mono_r; lia.
    - apply Nat.ltb_ge. apply Nat.pow_le_mono_r; lia. }
  destruct (root =? 0).
  - rewrite G. f_equal. lia.
  - destruct (L - 1) as [|k] eqn:E.
    + change (2 ^ 0 / 2) with 0. pose proof (pow2_pos r). transitivity true; [apply Nat.ltb_lt; lia|symmetry; apply Nat.leb_le; lia].
    + rewrite half_pow2. apply G.
Qed.

(** Blocks of [c] ranks starting with [p], one after the other. *)
Definition stream (p i : nat) : T := src (p + i / nelems) (i mod nelems).

Definition ga_rph (me r : nat) : phase (nat -> T) (list T) :=
  {| ph_loc := fun b => b; ph_snd := [];
     ph_rcv := [ga_recv nelems r (me + 2 ^ r) (2 ^ r) (Nat.min (me + 2 ^ r + 2 ^ r) n - (me + 2 ^ r))] |}.
Definition ga_sph (me r : nat) : phase (nat -> T) (list T) :=
  {| ph_loc := fun b => b; ph_snd := [ga_send nelems r (me - 2 ^ r) (Nat.min (me + 2 ^ r) n - me)]; ph_rcv := [] |}.

(** What the loop gives: receives in rounds r, .., a-1, then perhaps a send. *)
Lemma ga_loop_struct : forall f me r, Nat.divide (2 ^ r) me -> me < n -> r <= ga_rounds -> ga_rounds < f + r ->
  exists a tl, r <= a /\
    ga_loop n root nelems f me (2 ^ r) (2 ^ S r) r = map (ga_rph me) (seq r (a - r)) ++ tl /\
    (forall t, r <= t < a -> me + 2 ^ t < n /\ t < ga_rounds /\ Nat.divide (2 ^ S t) me) /\
    ((exists v, tl = [ga_sph me v] /\ a <= v < ga_rounds /\ below (me - 2 ^ v) v me /\
        Nat.min (2 ^ a) (n - me) = Nat.min (2 ^ v) (n - me)) \/
     (tl = [] /\ a <= ga_rounds /\ Nat.divide (2 ^ ga_rounds) me /\
        Nat.min (2 ^ a) (n - me) = Nat.min (2 ^ ga_rounds) (n - me))).
Proof.
  induction f as [|f IH]; intros me r Hd Hme Hr Hf; [lia|]. cbn [ga_loop]. rewrite ga_maxgap_lt.
  destruct (Nat.leb_spec ga_rounds r) as [Hge|Hlt].
  { exists r, []. replace (r - r) with 0 by lia. cbn [seq map app]. split; [lia|]. split; [reflexivity|].
    split; [intros; lia|]. right. replace r with ga_rounds in * by lia. auto. }
  pose proof (divide_mod me (2 ^ S r) ltac:(pose proof (pow2_pos (S r)); lia)) as Hdm.
  destruct (me mod 2 ^ S r =? 0).
  - assert (Hd' : Nat.divide (2 ^ S r) me) by (apply Hdm; reflexivity).
    destruct (IH me (S r) Hd' Hme Hlt ltac:(lia)) as (a & tl & Ha & E & H1 & H2).
    replace (2 ^ r * 2) with (2 ^ S r) by (rewrite Nat.pow_succ_r'; lia).
    replace (2 ^ S r * 2) with (2 ^ S (S r)) by (rewrite (Nat.pow_succ_r' 2 (S r)); lia).
    rewrite E. clear E. pose proof (pow2_pos r) as Hp. assert (Hs : 2 ^ S r = 2 ^ r + 2 ^ r) by (rewrite Nat.pow_succ_r'; lia).
    destruct (Nat.ltb_spec (me + 2 ^ r) n) as [Hin|Hout].
    + exists a, tl. split; [lia|]. split.
      * replace (a - r) with (S (a - S r)) by lia. reflexivity.
      * split; [|exact H2]. intros t Ht. destruct (Nat.eq_dec t r) as [->|Hne]; [auto|apply H1; lia].
    + assert (a = S r).
      { destruct (Nat.eq_dec a (S r)) as [E|E]; [exact E|]. exfalso. destruct (H1 (S r) ltac:(lia)) as (H & _). lia. }
      subst a. exists r, tl. replace (S r - S r) with 0 by lia. replace (r - r) with 0 by lia.
      split; [lia|]. split; [reflexivity|]. split; [intros; lia|].
      assert (Em : Nat.min (2 ^ r) (n - me) = Nat.min (2 ^ S r) (n - me)) by lia. rewrite Em.
      destruct H2 as [(v & H2)|H2]; [left; exists v|right]; intuition lia.
  - exists r, [ga_sph me r]. replace (r - r) with 0 by lia. split; [lia|]. split; [reflexivity|]. split; [intros; lia|].
    left. exists r. split; [reflexivity|]. split; [lia|]. split; [|reflexivity].
    apply odd_below; [exact Hd|]. intros D. apply Hdm in D. discriminate.
Qed.

Lemma ga_loop_ok : forall me, me < n -> exists a tl,
    ga_loop n root nelems (S n) me 1 2 0 = map (ga_rph me) (seq 0 a) ++ tl /\
    (forall t, t < a -> me + 2 ^ t < n /\ t < ga_rounds /\ Nat.divide (2 ^ S t) me) /\
    ((exists v, tl = [ga_sph me v] /\ a <= v < ga_rounds /\ below (me - 2 ^ v) v me /\
        Nat.min (2 ^ a) (n - me) = Nat.min (2 ^ v) (n - me)) \/
     (tl = [] /\ a <= ga_rounds /\ Nat.divide (2 ^ ga_rounds) me /\
        Nat.min (2 ^ a) (n - me) = Nat.min (2 ^ ga_rounds) (n - me))).
Proof.
  intros me Hme. assert (HR : ga_rounds < n).
  { pose proof ga_rounds_eq as H. pose proof ga_log_pos. pose proof ga_mid_lt as Hm. rewrite ga_mid_pow in Hm.
    pose proof (Nat.pow_gt_lin_r 2 (L - 1) ltac:(lia)). lia. }
  destruct (ga_loop_struct (S n) me 0) as (a & tl & _ & E & H1 & H2); [apply Nat.divide_1_l|exact Hme|lia|lia|].
  exists a, tl. rewrite Nat.sub_0_r in E. split; [exact E|]. split; [intros t Ht; apply H1; lia|exact H2].
Qed.

Lemma skeys_rph : forall me l, all_s (map (ga_rph me) l) = [].
Proof. intros me l. induction l as [|x l IH]; [reflexivity|]. cbn [map all_s flat_map]. exact IH. Qed.
Lemma rkeys_rph : forall me l, all_r (map (ga_rph me) l) = map (fun t => (t, me + 2 ^ t)) l.
Proof. intros me l. induction l as [|x l IH]; [reflexivity|]. cbn [map all_r flat_map]. cbn. f_equal. exact IH. Qed.

(** Messages of the tree and of the last round. *)
Definition ga_tree (t p q : nat) : Prop := t < ga_rounds /\ below q t p.
Definition ga_last (t p q : nat) : Prop := t = L /\ root <> 0 /\ q = root /\ (p = 0 \/ (p = mid /\ mid <> root)).

Lemma ga_loop_s : forall me t q, me < n ->
  In (t, q) (all_s (@ga_loop T n root nelems (S n) me 1 2 0)) <-> ga_tree t me q.
Proof.
  intros me t q Hme. destruct (ga_loop_ok me Hme) as (a & tl & E & H1 & H2). rewrite E, all_s_app, skeys_rph. cbn [app].
  destruct H2 as [(v & -> & Hv & B & _)|(-> & _ & D & _)]; cbn [all_s flat_map app skeys map ga_sph ph_snd ga_send fst In].
  - split.
    + intros [E2|[]]. injection E2 as <- <-. split; [lia|exact B].
    + intros (Ht & B2). left. destruct (below_unique _ _ _ _ _ B B2) as (<- & <-). reflexivity.
  - split; [intros []|]. intros (Ht & B2). apply below_div in B2. destruct B2 as (_ & B2). apply B2.
    apply (Nat.divide_trans _ (2 ^ ga_rounds)); [apply pow2_divide_le; lia|exact D].
Qed.
Lemma ga_loop_r : forall me t p, me < n ->
  In (t, p) (all_r (@ga_loop T n root nelems (S n) me 1 2 0)) <-> ga_tree t p me /\ p < n.
Proof.
  intros me t p Hme. destruct (ga_loop_ok me Hme) as (a & tl & E & H1 & H2). rewrite E, all_r_app, rkeys_rph.
  assert (Etl : all_r tl = []) by (destruct H2 as [(v & -> & _)|(-> & _)]; reflexivity). rewrite Etl, app_nil_r.
  rewrite in_map_iff. split.
  - intros (x & E2 & Hx). injection E2 as -> <-. apply in_seq in Hx. destruct (H1 t ltac:(lia)) as (H & H' & H'').
    split; [|exact H]. split; [exact H'|]. split; [reflexivity|exact H''].
  - intros ((Ht & (-> & D)) & Hp). exists t. split; [reflexivity|]. apply in_seq. split; [lia|]. cbn [Nat.add].
    destruct (le_lt_dec a t) as [Hat|Hat]; [exfalso|exact Hat].
    assert (G : forall v, t < v -> Nat.min (2 ^ a) (n - me) = Nat.min (2 ^ v) (n - me) -> False).
    { intros v Hv Em. pose proof (Nat.pow_le_mono_r 2 a t ltac:(lia) Hat).
      pose proof (Nat.pow_lt_mono_r 2 t v ltac:(lia) Hv). lia. }
    destruct H2 as [(v & -> & Hv & B & Em)|(-> & _ & _ & Em)]; [|exact (G ga_rounds Ht Em)].
    apply (G v); [|exact Em]. apply below_div in B. destruct B as (_ & B).
    destruct (le_lt_dec v t) as [Hvt|Hvt]; [|exact Hvt]. exfalso. apply B.
    apply (Nat.divide_trans _ (2 ^ S t)); [apply pow2_divide_le; lia|exact D].
Qed.

Lemma ga_final_s : forall me t q, In (t, q) (all_s (@ga_final T n root nelems me)) <-> ga_last t me q.
Proof.
  intros me t q. unfold ga_final, ga_last. fold L. fold mid. pose proof ga_mid_lt.
  destruct (Nat.eqb_spec root 0) as [E|E]; [cbn; tauto|].
  destruct (Nat.eqb_spec me root) as [->|Hne].
  { cbn. split; [tauto|]. intros (_ & _ & _ & [?|(? & ?)]); lia. }
  destruct (Nat.eqb_spec me 0) as [->|H0].
  { cbn. split; [intros [E2|[]]; injection E2 as <- <-; auto 6|]. intros (-> & _ & -> & _). auto. }
  destruct (Nat.eqb_spec me mid) as [->|H1]; cbn [andb].
  - destruct (Nat.eqb_spec mid root) as [E2|E2]; [contradiction|]. cbn.
    split; [intros [E3|[]]; injection E3 as <- <-; auto 8|]. intros (-> & _ & -> & _). auto.
  - cbn. split; [tauto|]. intros (_ & _ & _ & [Hc|(Hc & _)]); contradiction.
Qed.
Lemma ga_final_r : forall me t p, In (t, p) (all_r (@ga_final T n root nelems me)) <-> ga_last t p me.
Proof.
  intros me t p. unfold ga_final, ga_last. fold L. fold mid. pose proof ga_mid_lt.
  destruct (Nat.eqb_spec root 0) as [E|E]; [cbn; tauto|].
  destruct (Nat.eqb_spec me root) as [->|Hne].
  - destruct (Nat.eqb_spec mid root) as [E2|E2]; cbn.
    + split; [intros [E3|[]]; injection E3 as <- <-; auto 8|]. intros (-> & _ & _ & [->|(_ & ?)]); [auto|contradiction].
    + split; [intros [E3|[E3|[]]]; injection E3 as <- <-; auto 8|]. intros (-> & _ & _ & [->|(-> & _)]); auto.
  - destruct (me =? 0); [cbn; tauto|]. destruct ((me =? mid) && negb (mid =? root)); cbn; tauto.
Qed.

Lemma ga_all_s : forall me t q, me < n -> In (t, q) (all_s (pg_ph g me)) <-> ga_tree t me q \/ ga_last t me q.
Proof.
  intros me t q Hme. cbn [g gather_prog pg_ph]. unfold ga_phases. rewrite all_s_app, in_app_iff, ga_loop_s, ga_final_s by exact Hme.
  reflexivity.
Qed.
Lemma ga_all_r : forall me t p, me < n -> p < n -> In (t, p) (all_r (pg_ph g me)) <-> ga_tree t p me \/ ga_last t p me.
Proof.
  intros me t p Hme Hp. cbn [g gather_prog pg_ph]. unfold ga_phases. rewrite all_r_app, in_app_iff, ga_loop_r, ga_final_r by exact Hme.
  tauto.
Qed.

Lemma ga_tree_not_last : forall t p q p' q', ga_tree t p q -> ga_last t p' q' -> False.
Proof. intros t p q p' q' (H & _) (-> & Hr & _). pose proof ga_rounds_eq. pose proof ga_log_pos. lia. Qed.

Lemma ga_nodup : forall p, p < n -> NoDup (all_s (pg_ph g p)) /\ NoDup (all_r (pg_ph g p)).
Proof.
  intros p Hp. cbn [g gather_prog pg_ph]. unfold ga_phases. rewrite all_s_app, all_r_app. split; apply nodup_app_iff.
  - split; [|split].
    + destruct (ga_loop_ok p Hp) as (a & tl & E & H1 & H2). rewrite E, all_s_app, skeys_rph. cbn [app].
      destruct H2 as [(v & -> & _)|(-> & _)]; cbn; [constructor; [intros []|constructor]|constructor].
    + unfold ga_final. destruct (root =? 0); [constructor|]. destruct (p =? root); [cbn; constructor|].
      destruct (p =? 0); [cbn; constructor; [intros []|constructor]|].
      destruct ((p =? ga_mid n) && negb (ga_mid n =? root)); [cbn; constructor; [intros []|constructor]|constructor].
    + intros (t & q) Ha Hb. apply ga_loop_s in Ha; [|exact Hp]. apply ga_final_s in Hb. exact (ga_tree_not_last _ _ _ _ _ Ha Hb).
  - split; [|split].
    + destruct (ga_loop_ok p Hp) as (a & tl & E & H1 & H2). rewrite E, all_r_app, rkeys_rph.
      assert (Etl : all_r tl = []) by (destruct H2 as [(v & -> & _)|(-> & _)]; reflexivity). rewrite Etl, app_nil_r.
      apply nodup_map_in; [|apply seq_NoDup]. intros x y _ _ E2. congruence.
    + unfold ga_final. destruct (root =? 0); [constructor|]. fold mid. pose proof ga_mid_lt. destruct (p =? root).
      * destruct (Nat.eqb_spec mid root); cbn; (constructor; [|repeat constructor; intros []]).
        -- intros [].
        -- intros [E|[]]. injection E as E. change (mid = 0) in E. lia.
      * destruct (p =? 0); [cbn; constructor|].
        destruct ((p =? mid) && negb (mid =? root)); cbn; constructor.
    + intros (t & q) Ha Hb. apply ga_loop_r in Ha; [|exact Hp]. apply ga_final_r in Hb. exact (ga_tree_not_last _ _ _ _ _ (proj1 Ha) Hb).
Qed.

Lemma ga_balanced_single : balanced g /\ single g.
Proof.
  apply balanced_by_in; [exact ga_nodup|]. intros t p q Hp Hq. rewrite ga_all_s by exact Hp. rewrite ga_all_r by assumption.
  reflexivity.
Qed.

Lemma ga_inside : inside g.
Proof.
  intros t p q Hp. cbn [g gather_prog pg_np] in Hp |- *. split; intros Hin.
  - apply ga_all_s in Hin; [|exact Hp]. destruct Hin as [(_ & B)|(_ & _ & -> & _)]; [|exact Hroot].
    apply below_lt in B. lia.
  - cbn [g gather_prog pg_ph] in Hin. unfold ga_phases in Hin. rewrite all_r_app, in_app_iff, ga_loop_r, ga_final_r in Hin by exact Hp.
    destruct Hin as [(_ & H)|(_ & _ & _ & [->|(-> & _)])]; [exact H|lia|apply ga_mid_lt].
Qed.

Definition ga_len (p : nat) : nat := length (@ga_loop T n root nelems (S n) p 1 2 0).

Lemma ga_final_len : forall p, length (@ga_final T n root nelems p) <= 1.
Proof.
  intros p. unfold ga_final. destruct (root =? 0); [cbn; lia|]. destruct (p =? root); [cbn; lia|].
  destruct (p =? 0); [cbn; lia|]. destruct ((p =? ga_mid n) && negb (ga_mid n =? root)); cbn; lia.
Qed.
Lemma ga_len_le : forall p, p < n -> ga_len p <= n.
Proof.
  intros p Hp. unfold ga_len. destruct (ga_loop_ok p Hp) as (a & tl & E & H1 & H2). rewrite E, app_length, map_length, seq_length.
  assert (Htl : length tl <= 1) by (destruct H2 as [(v & -> & _)|(-> & _)]; cbn; lia).
  destruct a as [|a]; [lia|]. destruct (H1 a ltac:(lia)) as (H & _). pose proof (Nat.pow_gt_lin_r 2 a ltac:(lia)). lia.
Qed.

Definition ga_tm (p k : nat) : nat :=
  if (p =? root) && negb (root =? 0) && (ga_len p <=? k) then (n + 1) * (n + 2) + k else (n - p) * (n + 2) + k.

Lemma ga_root_final : root <> 0 -> forall k h, nth_error (pg_ph g root) k = Some h -> ga_len root <= k -> ph_snd h = [].
Proof.
  intros Hr k h Hk Hl. cbn [g gather_prog pg_ph] in Hk. unfold ga_phases in Hk. rewrite nth_error_app2 in Hk by exact Hl.
  unfold ga_final in Hk. destruct (Nat.eqb_spec root 0); [contradiction|]. rewrite Nat.eqb_refl in Hk.
  destruct (k - _) as [|[|j]]; cbn in Hk; try discriminate. injection Hk as <-. reflexivity.
Qed.

Lemma ga_ordered : ordered g ga_tm.
Proof.
  apply ordered_of_strict. split.
  - intros p k. unfold ga_tm. destruct ((p =? root) && negb (root =? 0)); cbn [andb]; [|lia].
    destruct (Nat.leb_spec (ga_len p) k); destruct (Nat.leb_spec (ga_len p) (S k)); nia.
  - intros p k h t q Hp Hk Hin. pose proof (all_r_of _ _ _ _ _ _ Hk Hin) as Hr. cbn [g gather_prog pg_np] in Hp.
    assert (Hq : q < n) by (apply (proj2 (ga_inside t p q Hp)); exact Hr).
    pose proof Hr as Hs. rewrite ga_all_r in Hs by assumption. pose proof Hs as Hs'. rewrite <- ga_all_s in Hs' by assumption.
    apply all_s_in in Hs'. destruct Hs' as (k' & h' & Hk' & Hx & Hl).
    exists k', h'. split; [exact Hk'|]. split; [exact Hx|].
    assert (Hk2 : k' <= n).
    { cbn [g gather_prog pg_ph] in Hl. unfold ga_phases in Hl. rewrite app_length in Hl. fold (ga_len q) in Hl.
      pose proof (ga_len_le q Hq). pose proof (ga_final_len q). lia. }
    unfold ga_tm. destruct Hs as [Ht|Hlast].
    + assert (Hlt : p < q) by (destruct Ht as (_ & B); apply below_lt in B; lia).
      assert (E : (q =? root) && negb (root =? 0) && (ga_len q <=? k') = false).
      { destruct (Nat.eqb_spec q root) as [->|]; [|reflexivity]. destruct (Nat.eqb_spec root 0) as [|Hr0]; [reflexivity|].
        cbn [negb andb]. destruct (Nat.leb_spec (ga_len root) k') as [Hle|]; [exfalso|reflexivity].
        rewrite (ga_root_final Hr0 _ _ Hk' Hle) in Hx. destruct Hx. }
      rewrite E. assert (Hm : (n - q) * (n + 2) + k' < (n - p) * (n + 2)).
      { replace (n - p) with (n - q + 1 + (q - p - 1)) by lia. nia. }
      destruct ((p =? root) && negb (root =? 0) && (ga_len p <=? k)); [|lia].
      assert ((n - p) * (n + 2) <= (n + 1) * (n + 2)) by (apply Nat.mul_le_mono_r; lia). lia.
    + destruct Hlast as (-> & Hr0 & -> & Hqc).
      assert (Hge : ga_len root <= k).
      { destruct (le_lt_dec (ga_len root) k) as [H|H]; [exact H|exfalso].
        cbn [g gather_prog pg_ph] in Hk. unfold ga_phases in Hk. rewrite nth_error_app1 in Hk by exact H.
        pose proof (all_r_of _ _ _ _ _ _ Hk Hin) as Hr2. apply ga_loop_r in Hr2; [|exact Hroot].
        apply (ga_tree_not_last L q root q root); [exact (proj1 Hr2)|]. repeat split; assumption. }
      destruct (Nat.eqb_spec root 0); [contradiction|]. rewrite Nat.eqb_refl. cbn [negb andb].
      destruct (Nat.leb_spec (ga_len root) k); [|lia].
      destruct (Nat.eqb_spec q root) as [E|_]; [exfalso; destruct Hqc as [->|(-> & ?)]; lia|]. cbn [andb].
      assert ((n - q) * (n + 2) <= n * (n + 2)) by (apply Nat.mul_le_mono_r; lia). lia.
Qed.

(** * The data *)

(** The first [c] blocks are those of [p], [p]+1, ... *)
Definition holds (p c : nat) (b : nat -> T) : Prop := forall i, i < c * nelems -> b i = stream p i.
Definition ga_cap (p : nat) : nat := if p =? root then n else mid.
Definition keeps (p : nat) (b : nat -> T) : Prop := forall i, ga_cap p * nelems <= i -> b i = buf p i.

Lemma stream_add : forall p d i, 0 < nelems -> stream p (d * nelems + i) = stream (p + d) i.
Proof.
  intros p d i H. unfold stream. rewrite (Nat.add_comm (d * nelems)), Nat.div_add, Nat.mod_add by lia. f_equal. lia.
Qed.

Definition ga_cnt (t p : nat) : nat :=
  if t <? ga_rounds then Nat.min (2 ^ t) (n - p) else if p =? 0 then mid else n - mid.
Definition ga_good (t p q : nat) (v : list T) : Prop := v = bread (stream p) 0 (nelems * ga_cnt t p).

Lemma holds_read : forall p c b, holds p c b -> bread b 0 (nelems * c) = bread (stream p) 0 (nelems * c).
Proof. intros p c b H. apply bread_ext. intros i Hi. apply H. lia. Qed.

(** Storing the blocks of [p]+[d] behind [d] blocks of [p]. *)
Lemma holds_write : forall p d c b, holds p d b ->
  holds p (d + c) (bwrite b (d * nelems) (bread (stream (p + d)) 0 (nelems * c))).
Proof.
  intros p d c b H i Hi. destruct (Nat.eq_dec nelems 0) as [E|E]; [rewrite E in Hi; lia|].
  destruct (le_lt_dec (d * nelems) i) as [Hle|Hlt].
  - rewrite (bwrite_in _ _ _ _ (b 0)) by (rewrite bread_length; lia). rewrite nth_bread by lia.
    rewrite Nat.add_0_l, <- stream_add by lia. f_equal. lia.
  - rewrite bwrite_out by lia. apply H. exact Hlt.
Qed.

Lemma ga_init_holds : forall p, holds p 1 (ga_init nelems src buf p) /\ keeps p (ga_init nelems src buf p).
Proof.
  intros p. unfold ga_init. split.
  - intros i Hi. rewrite (bwrite_in _ _ _ _ (src p 0)) by (rewrite bread_length; lia). rewrite nth_bread by lia.
    unfold stream. rewrite Nat.div_small, Nat.mod_small by lia. f_equal; lia.
  - intros i Hi. apply bwrite_out. rewrite bread_length. right. pose proof ga_mid_lt. unfold ga_cap in Hi.
    destruct (p =? root); nia.
Qed.

(** End of the receives of the tree. *)
Definition ga_rcvs (p : nat) : nat := length (all_r (@ga_loop T n root nelems (S n) p 1 2 0)).
Definition ga_have (p k : nat) : nat := Nat.min (2 ^ Nat.min k (ga_rcvs p)) (n - p).
Definition ga_full (p k : nat) : bool := (p =? root) && negb (root =? 0) && (ga_len p <? k).
Definition ga_inv (p k : nat) (b : nat -> T) : Prop :=
  keeps p b /\ if ga_full p k then holds 0 n b else holds p (ga_have p k) b.

Lemma ga_shape : forall p, p < n -> exists tl,
    ga_loop n root nelems (S n) p 1 2 0 = map (ga_rph p) (seq 0 (ga_rcvs p)) ++ tl /\
    (forall t, t < ga_rcvs p -> p + 2 ^ t < n /\ t < ga_rounds /\ Nat.divide (2 ^ S t) p) /\
    ((exists v, tl = [ga_sph p v] /\ ga_rcvs p <= v < ga_rounds /\ below (p - 2 ^ v) v p /\
        Nat.min (2 ^ ga_rcvs p) (n - p) = Nat.min (2 ^ v) (n - p)) \/
     (tl = [] /\ ga_rcvs p <= ga_rounds /\ Nat.divide (2 ^ ga_rounds) p /\
        Nat.min (2 ^ ga_rcvs p) (n - p) = Nat.min (2 ^ ga_rounds) (n - p))).
Proof.
  intros p Hp. destruct (ga_loop_ok p Hp) as (a & tl & E & H1 & H2). unfold ga_rcvs.
  assert (Ea : length (all_r (@ga_loop T n root nelems (S n) p 1 2 0)) = a).
  { rewrite E, all_r_app, app_length, rkeys_rph, map_length, seq_length.
    destruct H2 as [(v & -> & _)|(-> & _)]; cbn; lia. }
  rewrite Ea. exists tl. auto.
Qed.

Lemma nth_error_rph : forall p a k, k < a -> nth_error (map (ga_rph p) (seq 0 a)) k = Some (ga_rph p k).
Proof.
  intros p a k H. rewrite nth_error_map. assert (E : nth_error (seq 0 a) k = Some k).
  { rewrite (nth_error_nth' _ 0) by (rewrite seq_length; exact H). rewrite seq_nth by exact H. reflexivity. }
  rewrite E. reflexivity.
Qed.

(** The three kinds of phases. *)
Lemma ga_phase_cases : forall p k h, p < n -> nth_error (pg_ph g p) k = Some h ->
  (k < ga_rcvs p /\ h = ga_rph p k /\ k < ga_len p) \/
  (exists v, h = ga_sph p v /\ k = ga_rcvs p /\ k < ga_len p /\ v < ga_rounds /\
             Nat.min (2 ^ ga_rcvs p) (n - p) = Nat.min (2 ^ v) (n - p)) \/
  (k = ga_len p /\ ga_rcvs p <= k /\ In h (ga_final n root nelems p)).
Proof.
  intros p k h Hp Hk. destruct (ga_shape p Hp) as (tl & E & H1 & H2). cbn [g gather_prog pg_ph] in Hk. unfold ga_phases in Hk.
  assert (El : ga_len p = ga_rcvs p + length tl) by (unfold ga_len; rewrite E, app_length, map_length, seq_length; reflexivity).
  destruct (le_lt_dec (ga_len p) k) as [Hge|Hlt].
  - right. right. rewrite nth_error_app2 in Hk by exact Hge. fold (ga_len p) in Hk.
    pose proof (ga_final_len p). assert (Hk2 : k - ga_len p < length (@ga_final T n root nelems p)) by (apply nth_error_Some; congruence).
    split; [lia|]. split; [lia|]. exact (nth_error_In _ _ Hk).
  - rewrite nth_error_app1 in Hk by exact Hlt. rewrite E in Hk. destruct (le_lt_dec (ga_rcvs p) k) as [Ha|Ha].
    + right. left. rewrite nth_error_app2 in Hk by (rewrite map_length, seq_length; exact Ha).
      rewrite map_length, seq_length in Hk. destruct H2 as [(v & -> & Hv & _ & Em)|(-> & _)]; [|destruct (k - ga_rcvs p); discriminate].
      cbn [length] in El. replace (k - ga_rcvs p) with 0 in Hk by lia. cbn in Hk. injection Hk as <-.
      exists v. split; [reflexivity|]. split; [lia|]. split; [lia|]. split; [lia|exact Em].
    + left. rewrite nth_error_app1 in Hk by (rewrite map_length, seq_length; exact Ha). rewrite nth_error_rph in Hk by exact Ha.
      injection Hk as <-. auto.
Qed.

Lemma ga_full_false : forall p k, k <= ga_len p -> ga_full p k = false.
Proof. intros p k H. unfold ga_full. destruct (Nat.ltb_spec (ga_len p) k); [lia|]. rewrite andb_false_r. reflexivity. Qed.

Lemma ga_top_have : forall p, root <> 0 -> p = 0 \/ p = mid -> Nat.min (2 ^ ga_rcvs p) (n - p) = Nat.min mid (n - p).
Proof.
  intros p Hr Hp. pose proof ga_mid_lt as Hm. destruct ga_rounds_eq as [(? & _)|(_ & HR)]; [contradiction|].
  assert (Hpn : p < n) by lia. destruct (ga_shape p Hpn) as (tl & E & H1 & H2).
  assert (D : Nat.divide (2 ^ ga_rounds) p).
  { destruct Hp as [->| ->]; [apply Nat.divide_0_r|]. rewrite ga_mid_pow, HR. apply Nat.divide_refl. }
  destruct H2 as [(v & -> & Hv & B & _)|(_ & _ & _ & Em)].
  - exfalso. apply below_div in B. apply (proj2 B). apply (Nat.divide_trans _ (2 ^ ga_rounds)); [apply pow2_divide_le; lia|exact D].
  - rewrite Em, HR, <- ga_mid_pow. reflexivity.
Qed.

Lemma ga_annotated : annotated g ga_inv ga_good.
Proof.
  split.
  - intros p Hp. cbn [g gather_prog pg_init pg_np] in *. destruct (ga_init_holds p) as (H1 & H2). split; [exact H2|].
    rewrite ga_full_false by lia. unfold ga_have. change (2 ^ Nat.min 0 (ga_rcvs p)) with 1.
    replace (Nat.min 1 (n - p)) with 1 by lia. exact H1.
  - intros p k h Hp Hk. cbn [g gather_prog pg_np] in Hp.
    destruct (ga_phase_cases p k h Hp Hk) as [(Ha & -> & Hl)|[(v & -> & -> & Hl & Hv & Em)|(-> & Hl & Hin)]].
    + (* a receive of the tree *)
      destruct (ga_shape p Hp) as (tl & _ & H1 & _). destruct (H1 k Ha) as (Hlt & HkR & _).
      split; [intros l m t q rd _ []|]. intros m Hw.
      eapply within_one in Hw; [|reflexivity]; destruct Hw as (m0 & (Hk0 & Hh) & [(E & _)|(_ & v & Hv & ->)]); [discriminate|].
      rewrite ga_full_false in Hh by lia. cbn [ga_rph ph_loc]. unfold ga_good, ga_cnt in Hv.
      destruct (Nat.ltb_spec k ga_rounds); [|lia]. pose proof (pow2_pos k) as Hpk.
      replace (Nat.min (p + 2 ^ k + 2 ^ k) n - (p + 2 ^ k)) with (Nat.min (2 ^ k) (n - (p + 2 ^ k))) by lia.
      rewrite Hv, firstn_all2 by (rewrite bread_length; lia).
      unfold ga_have in Hh. replace (Nat.min k (ga_rcvs p)) with k in Hh by lia.
      replace (Nat.min (2 ^ k) (n - p)) with (2 ^ k) in Hh by lia. split.
      * intros i Hi. rewrite bwrite_out; [apply Hk0; exact Hi|]. right. rewrite bread_length.
        assert (Hcap : 2 ^ k + Nat.min (2 ^ k) (n - (p + 2 ^ k)) <= ga_cap p).
        { unfold ga_cap. destruct (Nat.eqb_spec p root); [lia|].
          assert (2 ^ k + 2 ^ k <= mid \/ p = 0 /\ root = 0).
          { rewrite ga_mid_pow. destruct ga_rounds_eq as [(Er & HR)|(Er & HR)].
            - left. destruct (Nat.eq_dec (S k) L) as [Ek|Ek].
              + exfalso. destruct (H1 k Ha) as (_ & _ & D). rewrite Ek in D. apply Nat.divide_pos_le in D; [|lia].
                pose proof ga_n_le. rewrite ga_mid_pow in *. rewrite <- Nat.pow_succ_r' in *. replace (S (L - 1)) with L in * by lia. lia.
              + replace (2 ^ k + 2 ^ k) with (2 ^ S k) by (rewrite Nat.pow_succ_r'; lia). apply Nat.pow_le_mono_r; lia.
            - left. replace (2 ^ k + 2 ^ k) with (2 ^ S k) by (rewrite Nat.pow_succ_r'; lia). apply Nat.pow_le_mono_r; lia. }
          lia. }
        nia.
      * rewrite ga_full_false by lia. unfold ga_have. replace (Nat.min (S k) (ga_rcvs p)) with (S k) by lia.
        replace (Nat.min (2 ^ S k) (n - p)) with (2 ^ k + Nat.min (2 ^ k) (n - (p + 2 ^ k))) by (rewrite Nat.pow_succ_r'; lia).
        apply holds_write. exact Hh.
    + (* the send of the tree *)
      assert (G : forall l m, within ga_inv ga_good p (ga_rcvs p) (ga_sph p v) l m -> ga_inv p (ga_rcvs p) m).
      { intros l m Hw. eapply within_none in Hw; [|reflexivity]; destruct Hw as (_ & m0 & Hi & ->). exact Hi. }
      assert (Eh : ga_have p (ga_rcvs p) = Nat.min (2 ^ v) (n - p)) by (unfold ga_have; rewrite Nat.min_id; exact Em).
      split.
      * intros l m t q rd Hw [E|[]]. injection E as <- <- <-. apply G in Hw. destruct Hw as (_ & Hh).
        rewrite ga_full_false, Eh in Hh by lia. unfold ga_good, ga_cnt. destruct (Nat.ltb_spec v ga_rounds); [|lia].
        replace (Nat.min (p + 2 ^ v) n - p) with (Nat.min (2 ^ v) (n - p)) by lia. apply holds_read. exact Hh.
      * intros m Hw. apply G in Hw. destruct Hw as (Hk0 & Hh). split; [exact Hk0|]. rewrite ga_full_false in Hh by lia.
        assert (Ef : ga_full p (S (ga_rcvs p)) = false) by (apply ga_full_false; lia). rewrite Ef.
        unfold ga_have in *. replace (Nat.min (S (ga_rcvs p)) (ga_rcvs p)) with (Nat.min (ga_rcvs p) (ga_rcvs p)) by lia. exact Hh.
    + (* the last round *)
      unfold ga_final in Hin. destruct (Nat.eqb_spec root 0) as [|Hr0]; [destruct Hin|]. fold mid in Hin. fold L in Hin.
      pose proof ga_mid_lt as Hm. pose proof ga_n_le as Hn2.
      assert (HLR : (L <? ga_rounds) = false) by (apply Nat.ltb_ge; pose proof ga_rounds_eq; lia).
      assert (Hav : ga_have p (ga_len p) = Nat.min (2 ^ ga_rcvs p) (n - p)) by (unfold ga_have; f_equal; f_equal; lia).
      destruct (Nat.eqb_spec p root) as [->|Hpr].
      * assert (Hfull : ga_full root (S (ga_len root)) = true).
        { unfold ga_full. rewrite Nat.eqb_refl. destruct (Nat.eqb_spec root 0); [contradiction|]. cbn [negb andb]. apply Nat.ltb_lt. lia. }
        assert (Hgood0 : forall v, ga_good L 0 root v -> firstn (nelems * mid) v = bread (stream 0) 0 (nelems * mid)).
        { intros v Hv. unfold ga_good, ga_cnt in Hv. rewrite HLR in Hv. cbn [Nat.eqb] in Hv. rewrite Hv. apply firstn_all2. rewrite bread_length. lia. }
        assert (Hgoodm : forall v, ga_good L mid root v -> firstn (nelems * (n - mid)) v = bread (stream mid) 0 (nelems * (n - mid))).
        { intros v Hv. unfold ga_good, ga_cnt in Hv. rewrite HLR in Hv. destruct (Nat.eqb_spec mid 0); [lia|]. rewrite Hv.
          apply firstn_all2. rewrite bread_length. lia. }
        assert (Hcap : ga_cap root = n) by (unfold ga_cap; rewrite Nat.eqb_refl; reflexivity).
        destruct Hin as [<-|[]]. split; [intros l m t q rd _ []|]. intros m Hw. unfold ga_inv. rewrite Hfull.
        destruct (Nat.eqb_spec mid root) as [Emr|Emr].
        -- rewrite <- Emr, Nat.eqb_refl in Hw. rewrite Emr in Hw.
           eapply within_one in Hw; [|reflexivity]; destruct Hw as (m0 & (Hk0 & Hh) & [(E & _)|(_ & v & Hv & ->)]); [discriminate|].
           cbn [ph_loc]. rewrite <- Emr, Hgood0 by exact Hv. rewrite Emr. cbn [Nat.mul].
           rewrite ga_full_false, Hav, ga_top_have in Hh by (first [lia|exact Hr0|right; congruence]).
           rewrite <- Emr in Hh. replace (Nat.min mid (n - mid)) with (n - mid) in Hh by lia.
           unfold ga_shuffle. fold mid. replace (bread m0 0 ((n - mid) * nelems)) with (bread (stream mid) 0 (nelems * (n - mid))).
           2:{ rewrite (Nat.mul_comm (n - mid)). symmetry. apply holds_read. exact Hh. }
           split.
           ++ intros i Hi. rewrite Hcap in Hi. rewrite !bwrite_out; [apply Hk0; rewrite Hcap; exact Hi| |]; rewrite bread_length; right; nia.
           ++ intros i Hi. destruct (le_lt_dec (mid * nelems) i) as [Hle|Hlt].
              ** rewrite bwrite_out by (rewrite bread_length; lia).
                 assert (nelems <> 0) by (intros E; rewrite E in Hi; lia).
                 rewrite (bwrite_in _ _ _ _ (m0 0)) by (rewrite bread_length; nia).
                 rewrite nth_bread by nia. rewrite Nat.add_0_l. change mid with (0 + mid) at 1. rewrite <- stream_add by lia. f_equal. lia.
              ** rewrite (bwrite_in _ _ _ _ (m0 0)) by (rewrite bread_length; lia). rewrite nth_bread by lia. f_equal. lia.
        -- destruct (Nat.eqb_spec root mid) as [?|_]; [lia|].
           eapply within_two in Hw; [|reflexivity]; destruct Hw
             as (m0 & (Hk0 & _) & [(E & _)|[(E & _)|[(E & _)|(_ & v1 & v2 & G1 & G2 & Em)]]]); try discriminate.
           cbn [ph_loc] in Em. rewrite Hgood0, Hgoodm in Em by assumption. cbn [Nat.mul] in Em.
           split.
           ++ intros i Hi. rewrite Hcap in Hi. destruct Em as [-> | ->];
                (rewrite !bwrite_out; [apply Hk0; rewrite Hcap; exact Hi| |]; rewrite bread_length; right; nia).
           ++ intros i Hi. assert (nelems <> 0) by (intros E; rewrite E in Hi; lia).
              assert (Emid : forall x, mid * nelems <= i -> stream mid (i - mid * nelems) = x -> stream 0 i = x).
              { intros x Hx <-. change mid with (0 + mid) at 1. rewrite <- stream_add by lia. f_equal. lia. }
              destruct (le_lt_dec (mid * nelems) i) as [Hle|Hlt].
              ** symmetry. apply Emid; [exact Hle|]. destruct Em as [-> | ->].
                 --- rewrite (bwrite_in _ _ _ _ (m0 0)) by (rewrite bread_length; nia). rewrite nth_bread by nia. reflexivity.
                 --- rewrite bwrite_out by (rewrite bread_length; lia).
                     rewrite (bwrite_in _ _ _ _ (m0 0)) by (rewrite bread_length; nia). rewrite nth_bread by nia. reflexivity.
              ** destruct Em as [-> | ->].
                 --- rewrite bwrite_out by lia. rewrite (bwrite_in _ _ _ _ (m0 0)) by (rewrite bread_length; lia).
                     rewrite nth_bread by lia. f_equal. lia.
                 --- rewrite (bwrite_in _ _ _ _ (m0 0)) by (rewrite bread_length; lia). rewrite nth_bread by lia. f_equal. lia.
      * assert (Hnf : forall k, ga_full p k = false).
        { intros k. unfold ga_full. destruct (Nat.eqb_spec p root); [contradiction|reflexivity]. }
        assert (G : forall c, (p = 0 \/ p = mid) -> In h [ {| ph_loc := fun b : nat -> T => b; ph_snd := [ga_send nelems L root c]; ph_rcv := [] |} ] ->
                   c = ga_cnt L p -> c = Nat.min mid (n - p) ->
          (forall l m t q rd, within ga_inv ga_good p (ga_len p) h l m -> In (t, q, rd) (ph_snd h) -> ga_good t p q (rd m)) /\
          (forall m, within ga_inv ga_good p (ga_len p) h [] m -> ga_inv p (S (ga_len p)) m)).
        { intros c Hp0 [<-|[]] Ec Em.
          assert (W : forall l m, within ga_inv ga_good p (ga_len p)
             {| ph_loc := fun b : nat -> T => b; ph_snd := [ga_send nelems L root c]; ph_rcv := [] |} l m -> ga_inv p (ga_len p) m).
          { intros l m Hw. eapply within_none in Hw; [|reflexivity]; destruct Hw as (_ & m0 & Hi & ->). exact Hi. }
          split.
          - intros l m t q rd Hw [E|[]]. injection E as <- <- <-. apply W in Hw. destruct Hw as (_ & Hh). rewrite Hnf in Hh.
            unfold ga_good. rewrite <- Ec. apply holds_read. rewrite Hav, ga_top_have, <- Em in Hh by assumption. exact Hh.
          - intros m Hw. apply W in Hw. destruct Hw as (H1 & H2). split; [exact H1|]. rewrite Hnf in *.
            unfold ga_have in *. replace (Nat.min (S (ga_len p)) (ga_rcvs p)) with (Nat.min (ga_len p) (ga_rcvs p)) by lia. exact H2. }
        unfold ga_cnt in G. rewrite HLR in G.
        destruct (Nat.eqb_spec p 0) as [E0|E0].
        -- apply (G mid); [left; exact E0|exact Hin|reflexivity|lia].
        -- destruct (Nat.eqb_spec p mid) as [Ep|]; [|destruct Hin]. destruct (Nat.eqb_spec mid root) as [|]; [destruct Hin|].
           apply (G (n - mid)); [right; exact Ep|exact Hin|reflexivity|lia].
Qed.

(** The root has everything in the end. *)
Lemma ga_root_done : forall b, ga_inv root (length (pg_ph g root)) b -> holds 0 n b.
Proof.
  intros b (_ & H). cbn [g gather_prog pg_ph] in H. unfold ga_phases in H. rewrite app_length in H. fold (ga_len root) in H.
  destruct (Nat.eq_dec root 0) as [E|E].
  - set (fl := length (ga_final n root nelems root)) in H. clearbody fl. unfold ga_full in H. assert (Ez : (root =? 0) = true) by (apply Nat.eqb_eq; exact E). rewrite Ez in H.
    cbn [negb] in H. rewrite andb_false_r in H. cbn [andb] in H. rewrite E in H.
    destruct (ga_shape 0 ltac:(lia)) as (tl & Es & H1 & H2).
    destruct H2 as [(v & -> & Hv & (B & _) & _)|(-> & _ & _ & Em)]; [pose proof (pow2_pos v); lia|].
    unfold ga_have in H. replace (Nat.min (ga_len 0 + fl) (ga_rcvs 0)) with (ga_rcvs 0) in H.
    2:{ unfold ga_len. rewrite Es, app_length, map_length, seq_length. lia. }
    replace (n - 0) with n in H, Em by lia. rewrite Em in H. replace (Nat.min (2 ^ ga_rounds) n) with n in H; [exact H|].
    pose proof ga_n_le as Hn2. rewrite ga_mid_pow, <- Nat.pow_succ_r' in Hn2. pose proof ga_log_pos.
    replace (S (L - 1)) with L in Hn2 by lia. destruct ga_rounds_eq as [(_ & ->)|(? & _)]; [lia|contradiction].
  - assert (Hf : ga_full root (ga_len root + length (@ga_final T n root nelems root)) = true).
    { unfold ga_full, ga_final. rewrite Nat.eqb_refl. destruct (Nat.eqb_spec root 0); [contradiction|]. cbn [length negb andb]. apply Nat.ltb_lt. lia. }
    rewrite Hf in H. exact H.
Qed.
End Ga.
