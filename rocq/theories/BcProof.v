(** The tree of the broadcast. *)
From Coq Require Import List Arith Lia Bool.
From Verif Require Import ListFacts RdModel RdProof AgProof PhModel PhProof BcModel.
Import ListNotations.

Lemma half_pow2 : forall k, 2 ^ S k / 2 = 2 ^ k.
Proof. intros k. rewrite Nat.pow_succ_r'. rewrite Nat.mul_comm. apply Nat.div_mul. lia. Qed.

Lemma halvings_spec : forall k f s, k < f -> In s (halvings f (2 ^ k)) <-> exists j, j <= k /\ s = 2 ^ j.
Proof.
  induction k as [|k IH]; intros f s Hf; (destruct f as [|f]; [lia|]); cbn [halvings].
  - change (2 ^ 0) with 1. cbn [Nat.eqb]. change (1 / 2) with 0.
    replace (halvings f 0) with (@nil nat) by (destruct f; reflexivity). cbn [In]. split.
    + intros [<-|[]]. exists 0. split; [lia|reflexivity].
    + intros (j & Hj & ->). left. replace j with 0 by lia. reflexivity.
  - rewrite half_pow2. pose proof (pow2_pos (S k)) as Hp. destruct (Nat.eqb_spec (2 ^ S k) 0); [lia|]. cbn [In].
    rewrite IH by lia. split.
    + intros [<-|(j & Hj & ->)]; [exists (S k); auto|exists j; auto].
    + intros (j & Hj & ->). destruct (Nat.eq_dec j (S k)) as [->|]; [left; reflexivity|right; exists j; split; [lia|reflexivity]].
Qed.

Lemma halvings_nodup : forall k f, k < f -> NoDup (halvings f (2 ^ k)).
Proof.
  induction k as [|k IH]; intros f Hf; (destruct f as [|f]; [lia|]); cbn [halvings].
  - change (2 ^ 0) with 1. cbn [Nat.eqb]. change (1 / 2) with 0.
    replace (halvings f 0) with (@nil nat) by (destruct f; reflexivity). constructor; [intros []|constructor].
  - rewrite half_pow2. pose proof (pow2_pos (S k)) as Hp. destruct (Nat.eqb_spec (2 ^ S k) 0); [lia|].
    constructor; [|apply IH; lia]. intros Hin. apply halvings_spec in Hin; [|lia]. destruct Hin as (j & Hj & E).
    assert (2 ^ j < 2 ^ S k) by (apply Nat.pow_lt_mono_r; lia). lia.
Qed.

(** [o] hangs below [a] at level [t]. *)
Definition below (a t o : nat) : Prop := o = a + 2 ^ t /\ Nat.divide (2 ^ S t) a.

Lemma below_unique : forall a t b s o, below a t o -> below b s o -> a = b /\ t = s.
Proof.
  assert (H : forall a t b s o, below a t o -> below b s o -> s < t -> False).
  { intros a t b s o (E1 & (x & D1)) (E2 & (y & D2)) Hst. rewrite D1 in E1. rewrite D2 in E2.
    replace t with (S s + (t - S s)) in E1 by lia. set (d := t - S s) in *.
    rewrite <- Nat.add_succ_r, !Nat.pow_add_r, !Nat.pow_succ_r' in E1. rewrite Nat.pow_succ_r' in E2.
    pose proof (pow2_pos s) as Hp.
    assert (E : 2 ^ s * (2 * (x * (2 * 2 ^ d) + 2 ^ d)) = 2 ^ s * (2 * y + 1)) by nia.
    apply Nat.mul_cancel_l in E; [|lia]. lia. }
  intros a t b s o H1 H2. destruct (lt_eq_lt_dec t s) as [[Hlt|E]|Hlt].
  - exfalso. exact (H b s a t o H2 H1 Hlt).
  - subst s. destruct H1 as (E1 & _), H2 as (E2 & _). lia.
  - exfalso. exact (H a t b s o H1 H2 Hlt).
Qed.

Lemma below_lt : forall a t o, below a t o -> a < o.
Proof. intros a t o (E & _). pose proof (pow2_pos t). lia. Qed.

Lemma bc_find_spec : forall k f o a, k < f -> Nat.divide (2 ^ S k) a -> a < o < a + 2 ^ S k ->
  exists b t, bc_find f o a (2 ^ k) = (b, 2 ^ t) /\ below b t o /\ t <= k.
Proof.
  induction k as [|k IH]; intros f o a Hf Hd Ho; (destruct f as [|f]; [lia|]); cbn [bc_find].
  - change (2 ^ 0) with 1 in *. change (2 ^ 1) with 2 in *. replace o with (a + 1) by lia. rewrite Nat.eqb_refl.
    cbn [negb andb Nat.ltb Nat.leb]. exists a, 0. split; [reflexivity|]. split; [|lia]. split; [reflexivity|exact Hd].
  - rewrite half_pow2. pose proof (pow2_pos (S k)) as Hp.
    destruct (Nat.ltb_spec 0 (2 ^ S k)) as [_|Hc]; [|lia]. cbn [andb].
    destruct (Nat.eqb_spec o (a + 2 ^ S k)) as [E|Hne]; cbn [negb].
    + exists a, (S k). split; [reflexivity|]. split; [|lia]. split; [exact E|exact Hd].
    + assert (E2 : 2 ^ S (S k) = 2 ^ S k + 2 ^ S k) by (rewrite (Nat.pow_succ_r' 2 (S k)); lia).
      assert (Hd' : Nat.divide (2 ^ S k) a).
      { apply (Nat.divide_trans _ (2 ^ S (S k))); [|exact Hd]. exists 2. rewrite (Nat.pow_succ_r' 2 (S k)). lia. }
      destruct (Nat.ltb_spec (a + 2 ^ S k) o) as [Hlt|Hge].
      * destruct (IH f o (a + 2 ^ S k)) as (b & t & F & B & Ht); [lia| |lia|].
        -- apply Nat.divide_add_r; [exact Hd'|apply Nat.divide_refl].
        -- exists b, t. split; [exact F|split; [exact B|lia]].
      * destruct (IH f o a) as (b & t & F & B & Ht); [lia|exact Hd'|lia|].
        exists b, t. split; [exact F|split; [exact B|lia]].
Qed.

Lemma even_below : forall a t o, below a t o -> (o mod 2 =? 0) = negb (t =? 0).
Proof.
  intros a t o (E & (x & D)). rewrite Nat.pow_succ_r' in D. destruct t as [|t].
  - cbn in D. subst. change (2 ^ 0) with 1. replace (x * 2 + 1) with (1 + x * 2) by lia. rewrite Nat.mod_add by lia. reflexivity.
  - rewrite Nat.pow_succ_r' in *. subst. cbn [negb Nat.eqb]. apply Nat.eqb_eq.
    replace (x * (2 * (2 * 2 ^ t)) + 2 * 2 ^ t) with ((x * (2 * 2 ^ t) + 2 ^ t) * 2) by lia. apply Nat.mod_mul. lia.
Qed.

Section Tree.
Variables (n root nelems : nat).
Hypothesis Hn : 2 <= n.
Hypothesis Hroot : root < n.

Lemma bc_round_pow : exists K, bc_round n / 2 = 2 ^ K /\ K < n /\ n <= 2 ^ S K.
Proof.
  unfold bc_round. destruct (ctree_ok n) as (H1 & H2 & H3).
  assert (Hlg : log2_of n <> 0) by (intros E; rewrite E in *; cbn in *; lia).
  exists (log2_of n - 1). rewrite H1.
  replace (log2_of n) with (S (log2_of n - 1)) at 1 by lia. rewrite half_pow2.
  split; [reflexivity|]. split.
  - destruct H3 as [H3|H3]; [contradiction|]. pose proof (Nat.pow_gt_lin_r 2 (log2_of n - 1) ltac:(lia)). lia.
  - replace (S (log2_of n - 1)) with (log2_of n) by lia. lia.
Qed.

Lemma bc_window_spec : forall o, 0 < o < n -> exists t, bc_window n o = (fst (bc_window n o), 2 ^ t) /\
  below (fst (bc_window n o)) t o.
Proof.
  intros o Ho. destruct bc_round_pow as (K & E & HK & HnK). unfold bc_window. rewrite E.
  destruct (bc_find_spec K (S n) o 0) as (b & t & F & B & Ht); [lia|apply Nat.divide_0_r|lia|].
  exists t. rewrite F. cbn [fst]. auto.
Qed.

Definition bc_parent (o : nat) : nat := fst (bc_window n o).

Lemma bc_parent_lt : forall o, 0 < o < n -> bc_parent o < o.
Proof. intros o Ho. destruct (bc_window_spec o Ho) as (t & _ & B). exact (below_lt _ _ _ B). Qed.

Lemma bc_parent_eq : forall a t o, 0 < o < n -> below a t o -> bc_parent o = a.
Proof. intros a t o Ho B. destruct (bc_window_spec o Ho) as (t' & _ & B'). exact (proj1 (below_unique _ _ _ _ _ B' B)). Qed.

Lemma bc_off_real : forall o, o < n -> bc_off n root (bc_real n root o) = o.
Proof. intros o Ho. unfold bc_off, bc_real. apply mod_add_sub; lia. Qed.
Lemma bc_real_off : forall p, p < n -> bc_real n root (bc_off n root p) = p.
Proof. intros p Hp. unfold bc_off, bc_real. apply mod_sub_add; lia. Qed.
Lemma bc_off_lt : forall p, bc_off n root p < n.
Proof. intros p. apply Nat.mod_upper_bound. lia. Qed.
Lemma bc_real_lt : forall o, bc_real n root o < n.
Proof. intros p. apply Nat.mod_upper_bound. lia. Qed.
Lemma bc_off_root : bc_off n root root = 0.
Proof. unfold bc_off. replace (root + n - root) with (1 * n) by lia. apply Nat.mod_mul. lia. Qed.
Lemma bc_off_pos : forall p, p < n -> p <> root -> 0 < bc_off n root p < n.
Proof.
  intros p Hp Hne. split; [|apply bc_off_lt]. destruct (Nat.eq_dec (bc_off n root p) 0) as [E|E]; [|lia].
  exfalso. apply Hne. rewrite <- (bc_real_off p Hp), E. rewrite <- bc_off_root. apply bc_real_off. exact Hroot.
Qed.

Lemma nodup_map_in : forall (A B : Type) (f : A -> B) l, (forall x y, In x l -> In y l -> f x = f y -> x = y) ->
  NoDup l -> NoDup (map f l).
Proof.
  intros A B f l Hi Hl. induction Hl as [|x l Hx Hl IH]; cbn [map]; constructor.
  - intros Hin. apply in_map_iff in Hin. destruct Hin as (y & E & Hy). apply Hx.
    rewrite <- (Hi y x); [exact Hy|right; exact Hy|left; reflexivity|exact E].
  - apply IH. intros a b Ha Hb. apply Hi; right; assumption.
Qed.

Lemma bc_sends_root_spec : forall q, In q (bc_sends_root n root) <->
  exists c, 0 < c < n /\ bc_parent c = 0 /\ q = bc_real n root c.
Proof.
  intros q. unfold bc_sends_root. destruct bc_round_pow as (K & E & HK & HnK). rewrite E, in_map_iff. split.
  - intros (g & <- & Hg). apply filter_In in Hg. destruct Hg as (Hg & Hlt). apply Nat.ltb_lt in Hlt.
    apply halvings_spec in Hg; [|lia]. destruct Hg as (j & Hj & ->). pose proof (pow2_pos j).
    exists (2 ^ j). split; [lia|]. split; [|unfold bc_real; f_equal; lia].
    apply (bc_parent_eq 0 j); [lia|]. split; [lia|apply Nat.divide_0_r].
  - intros (c & Hc & Hp & ->). destruct (bc_window_spec c Hc) as (t & _ & (B & _)). fold (bc_parent c) in B. rewrite Hp in B.
    cbn [Nat.add] in B. exists c. split; [unfold bc_real; f_equal; lia|]. apply filter_In.
    split; [|apply Nat.ltb_lt; lia]. apply halvings_spec; [lia|]. exists t. split; [|exact B].
    destruct (le_lt_dec t K) as [H|H]; [exact H|]. pose proof (Nat.pow_le_mono_r 2 (S K) t ltac:(lia) ltac:(lia)). lia.
Qed.

Lemma bc_sends_child_spec : forall o q, 0 < o < n -> In q (bc_sends_child n root o) <->
  exists c, 0 < c < n /\ bc_parent c = o /\ q = bc_real n root c.
Proof.
  intros o q Ho. unfold bc_sends_child. destruct (bc_window_spec o Ho) as (t & W & B).
  set (a := fst (bc_window n o)) in *. clearbody a. rewrite W.
  assert (Ht : t < S n).
  { destruct B as (B & _). pose proof (Nat.pow_gt_lin_r 2 t ltac:(lia)). lia. }
  assert (Hdo : Nat.divide (2 ^ t) o).
  { destruct B as (B1 & D). rewrite B1. apply Nat.divide_add_r; [|apply Nat.divide_refl].
    apply (Nat.divide_trans _ (2 ^ S t)); [|exact D]. exists 2. rewrite Nat.pow_succ_r'. lia. }
  rewrite (even_below _ _ _ B). split.
  - intros Hin. destruct (Nat.eqb_spec t 0) as [->|Ht0]; cbn [negb] in Hin; [destruct Hin|].
    apply in_map_iff in Hin. destruct Hin as (s & <- & Hs). apply filter_In in Hs. destruct Hs as (Hs & Hlt).
    apply Nat.ltb_lt in Hlt. apply halvings_spec in Hs; [|lia]. destruct Hs as (j & Hj & ->).
    pose proof (pow2_pos j). destruct B as (B & D).
    assert (Hjt : j < t).
    { destruct (Nat.eq_dec j t) as [->|]; [|lia]. lia. }
    exists (o + 2 ^ j). split; [lia|]. split; [|reflexivity]. apply (bc_parent_eq o j); [lia|]. split; [reflexivity|].
    apply (Nat.divide_trans _ (2 ^ t)); [|exact Hdo]. exists (2 ^ (t - S j)). rewrite <- Nat.pow_add_r. f_equal. lia.
  - intros (c & Hc & Hp & ->). destruct (bc_window_spec c Hc) as (s & _ & (B2 & D2)). fold (bc_parent c) in B2, D2.
    rewrite Hp in B2, D2.
    assert (Hst : s < t).
    { destruct (le_lt_dec t s) as [H|H]; [exfalso|exact H]. destruct B as (B & D).
      assert (D3 : Nat.divide (2 ^ S t) o).
      { apply (Nat.divide_trans _ (2 ^ S s)); [|exact D2]. exists (2 ^ (s - t)). rewrite <- Nat.pow_add_r. f_equal. lia. }
      assert (D4 : Nat.divide (2 ^ S t) (2 ^ t)).
      { replace (2 ^ t) with (o - a) by lia. apply Nat.divide_sub_r; assumption. }
      apply Nat.divide_pos_le in D4; [|apply pow2_pos]. rewrite Nat.pow_succ_r' in D4. pose proof (pow2_pos t). lia. }
    destruct (Nat.eqb_spec t 0) as [E|_]; [lia|]. cbn [negb]. apply in_map_iff. exists (2 ^ s).
    split; [rewrite <- B2; reflexivity|]. apply filter_In. split.
    + apply halvings_spec; [lia|]. exists s. split; [lia|reflexivity].
    + apply Nat.ltb_lt. destruct B as (B & _). pose proof (Nat.pow_lt_mono_r 2 s t ltac:(lia) Hst). lia.
Qed.

Lemma bc_real_inj : forall a b, a < n -> b < n -> bc_real n root a = bc_real n root b -> a = b.
Proof. intros a b Ha Hb E. rewrite <- (bc_off_real a Ha), <- (bc_off_real b Hb), E. reflexivity. Qed.

Lemma bc_sends_root_nodup : NoDup (bc_sends_root n root).
Proof.
  unfold bc_sends_root. destruct bc_round_pow as (K & E & HK & HnK). rewrite E. apply nodup_map_in.
  - intros x y Hx Hy Exy. apply filter_In in Hx, Hy. destruct Hx as (_ & Hx), Hy as (_ & Hy).
    apply Nat.ltb_lt in Hx, Hy. apply bc_real_inj; [exact Hx|exact Hy|]. unfold bc_real.
    rewrite (Nat.add_comm x), (Nat.add_comm y). exact Exy.
  - apply NoDup_filter. apply halvings_nodup. lia.
Qed.
Lemma bc_sends_child_nodup : forall o, 0 < o < n -> NoDup (bc_sends_child n root o).
Proof.
  intros o Ho. unfold bc_sends_child. destruct (bc_window_spec o Ho) as (t & W & B). rewrite W.
  destruct (o mod 2 =? 0); [|constructor]. apply nodup_map_in.
  - intros x y Hx Hy Exy. apply filter_In in Hx, Hy. destruct Hx as (_ & Hx), Hy as (_ & Hy).
    apply Nat.ltb_lt in Hx, Hy. apply bc_real_inj in Exy; lia.
  - apply NoDup_filter. apply halvings_nodup. destruct B as (B & _).
    pose proof (Nat.pow_gt_lin_r 2 t ltac:(lia)). lia.
Qed.

(** * The schedule *)
Context {T : Type}.
Variable buf : nat -> nat -> T.
Let g := bcast_prog n root nelems buf.

Definition bc_out (p : nat) : list nat :=
  if p =? root then bc_sends_root n root else bc_sends_child n root (bc_off n root p).

Lemma bc_out_spec : forall p q, p < n -> In q (bc_out p) <->
  q < n /\ q <> root /\ bc_real n root (bc_parent (bc_off n root q)) = p.
Proof.
  intros p q Hp. unfold bc_out.
  assert (G : forall o, o < n -> (exists c, 0 < c < n /\ bc_parent c = o /\ q = bc_real n root c) <->
              q < n /\ q <> root /\ bc_real n root (bc_parent (bc_off n root q)) = bc_real n root o).
  { intros o Ho. split.
    - intros (c & Hc & Hpc & ->). split; [apply bc_real_lt|]. rewrite bc_off_real by lia. split; [|congruence].
      intros E. apply (f_equal (bc_off n root)) in E. rewrite bc_off_real, bc_off_root in E by lia. lia.
    - intros (Hq & Hqr & E). pose proof (bc_off_pos q Hq Hqr) as Hoq.
      exists (bc_off n root q). split; [exact Hoq|]. split; [|symmetry; apply bc_real_off; exact Hq].
      apply bc_real_inj in E; [exact E| |exact Ho]. pose proof (bc_parent_lt _ Hoq). lia. }
  destruct (Nat.eqb_spec p root) as [->|Hne].
  - rewrite bc_sends_root_spec, (G 0) by lia. rewrite <- bc_off_root, bc_real_off by exact Hroot. tauto.
  - pose proof (bc_off_pos p Hp Hne) as Ho. rewrite bc_sends_child_spec by exact Ho. rewrite G by lia.
    rewrite bc_real_off by exact Hp. tauto.
Qed.

Lemma bc_out_nodup : forall p, p < n -> NoDup (bc_out p).
Proof.
  intros p Hp. unfold bc_out. destruct (Nat.eqb_spec p root) as [->|Hne]; [apply bc_sends_root_nodup|].
  apply bc_sends_child_nodup. apply bc_off_pos; assumption.
Qed.

Lemma skeys_bc : forall l, @skeys (nat -> T) (list T) (map (bc_send nelems) l) = map (fun q => (0, q)) l.
Proof. intros l. unfold skeys. rewrite map_map. reflexivity. Qed.

Lemma bc_all_s : forall p, all_s (pg_ph g p) = map (fun q => (0, q)) (bc_out p).
Proof.
  intros p. unfold g, bcast_prog, bc_phases, bc_out. cbn [pg_ph].
  destruct (p =? root); unfold all_s; cbn [flat_map ph_snd]; rewrite ?skeys_bc, app_nil_r; reflexivity.
Qed.
Lemma bc_all_r : forall p, all_r (pg_ph g p) =
  if p =? root then [] else [(0, bc_real n root (bc_parent (bc_off n root p)))].
Proof.
  intros p. unfold g, bcast_prog, bc_phases. cbn [pg_ph]. destruct (p =? root); reflexivity.
Qed.

Lemma cnt_map0 : forall t q l, NoDup l -> cnt t q (map (fun x => (0, x)) l) = if t =? 0 then (if in_dec Nat.eq_dec q l then 1 else 0) else 0.
Proof.
  intros t q l H. induction H as [|x l Hx H IH]; cbn [map].
  - cbn. destruct (t =? 0); reflexivity.
  - rewrite cnt_cons, IH. rewrite (Nat.eqb_sym 0 t). destruct (t =? 0); cbn [andb]; [|reflexivity].
    destruct (Nat.eqb_spec x q) as [->|Hne].
    + destruct (in_dec Nat.eq_dec q l) as [Hi|Hi]; [contradiction|].
      destruct (in_dec Nat.eq_dec q (q :: l)) as [_|Hj]; [reflexivity|]. exfalso. apply Hj. left. reflexivity.
    + destruct (in_dec Nat.eq_dec q l) as [Hi|Hi]; destruct (in_dec Nat.eq_dec q (x :: l)) as [Hj|Hj]; try reflexivity.
      * exfalso. apply Hj. right. exact Hi.
      * exfalso. destruct Hj as [E|Hj]; [congruence|contradiction].
Qed.

Lemma bc_balanced : balanced g.
Proof.
  intros t p q Hp Hq. cbn [g bcast_prog pg_np] in Hp, Hq. rewrite bc_all_s, bc_all_r, cnt_map0 by (apply bc_out_nodup; exact Hp).
  destruct (Nat.eqb_spec q root) as [->|Hne].
  - destruct (t =? 0); [|reflexivity]. destruct (in_dec Nat.eq_dec root (bc_out p)) as [Hi|Hi]; [|reflexivity].
    apply bc_out_spec in Hi; [|exact Hp]. tauto.
  - rewrite cnt_cons. change (cnt t p []) with 0. rewrite Nat.add_0_r, (Nat.eqb_sym 0 t).
    destruct (t =? 0); cbn [andb]; [|reflexivity].
    destruct (in_dec Nat.eq_dec q (bc_out p)) as [Hi|Hi].
    + apply bc_out_spec in Hi; [|exact Hp]. destruct Hi as (_ & _ & ->). rewrite Nat.eqb_refl. reflexivity.
    + destruct (Nat.eqb_spec (bc_real n root (bc_parent (bc_off n root q))) p) as [E|E]; [|reflexivity].
      exfalso. apply Hi. apply bc_out_spec; auto.
Qed.

Lemma bc_single : single g.
Proof.
  intros t p q Hp. cbn [g bcast_prog pg_np] in Hp. rewrite bc_all_s, cnt_map0 by (apply bc_out_nodup; exact Hp).
  destruct (t =? 0); [|lia]. destruct (in_dec Nat.eq_dec q (bc_out p)); lia.
Qed.

Lemma bc_inside : inside g.
Proof.
  intros t p q Hp. cbn [g bcast_prog pg_np] in *. split; intros Hin.
  - rewrite bc_all_s in Hin. apply in_map_iff in Hin. destruct Hin as (x & E & Hx). injection E as _ ->.
    apply bc_out_spec in Hx; [|exact Hp]. tauto.
  - rewrite bc_all_r in Hin. destruct (p =? root); [destruct Hin|]. destruct Hin as [E|[]]. injection E as _ <-.
    apply bc_real_lt.
Qed.

Lemma bc_ordered : ordered g (fun p k => 2 * bc_off n root p + k).
Proof.
  apply ordered_of_strict. split; [intros; lia|]. intros p k h t q Hp Hk Hin. cbn [g bcast_prog pg_np pg_ph] in *.
  unfold bc_phases in Hk at 1. destruct (Nat.eqb_spec p root) as [->|Hne].
  - destruct k as [|[|k]]; cbn in Hk; try discriminate. injection Hk as <-. destruct Hin.
  - destruct k as [|[|k]]; cbn [nth_error] in Hk; try (destruct k; discriminate); injection Hk as <-; cbn [ph_rcv] in Hin;
      [|destruct Hin].
    destruct Hin as [E|[]]. injection E as <- <-.
    pose proof (bc_off_pos p Hp Hne) as Ho. pose proof (bc_parent_lt _ Ho) as Hlt. fold (bc_parent (bc_off n root p)).
    set (a := bc_parent (bc_off n root p)) in *. set (q := bc_real n root a).
    assert (Hq : q < n) by apply bc_real_lt.
    assert (Hout : In (0, p) (map (fun x => (0, x)) (bc_out q))).
    { apply in_map. apply bc_out_spec; [exact Hq|]. auto. }
    assert (Hoff : bc_off n root q = a) by (apply bc_off_real; lia). rewrite Hoff.
    unfold bc_phases, bc_out in *. rewrite Hoff in *. destruct (Nat.eqb_spec q root) as [E|E].
    + exists 0. eexists. split; [reflexivity|]. cbn [ph_snd]. rewrite skeys_bc. split; [exact Hout|lia].
    + exists 1. eexists. split; [reflexivity|]. cbn [ph_snd]. rewrite skeys_bc. split; [exact Hout|lia].
Qed.

(** Assertions: a rank other than the root holds its own data before and the
    data of the root after its receive. *)
Definition bc_has (p k : nat) (b : nat -> T) : Prop :=
  (forall i, i < nelems -> p = root \/ 0 < k -> b i = buf root i) /\
  (forall i, nelems <= i -> b i = buf p i).

Lemma bc_annotated : annotated g bc_has (fun _ _ _ v => v = bread (buf root) 0 nelems).
Proof.
  assert (Hrd : forall p k b, bc_has p k b -> p = root \/ 0 < k -> bread b 0 nelems = bread (buf root) 0 nelems).
  { intros p k b (H & _) Hc. apply bread_ext. intros i Hi. apply H; [lia|exact Hc]. }
  split.
  - intros p Hp. cbn [g bcast_prog pg_init]. split; [|reflexivity]. intros i Hi [->|H]; [reflexivity|lia].
  - intros p k h Hp Hk. cbn [g bcast_prog pg_np pg_ph] in *. unfold bc_phases in Hk.
    destruct (Nat.eqb_spec p root) as [->|Hne].
    + destruct k as [|k]; [|destruct k; discriminate]. cbn [nth_error] in Hk. injection Hk as <-.
      assert (W : forall l m, within bc_has (fun _ _ _ v => v = bread (buf root) 0 nelems) root 0
                 {| ph_loc := fun b : nat -> T => b; ph_snd := map (bc_send nelems) (bc_sends_root n root); ph_rcv := [] |} l m ->
               l = [] /\ bc_has root 0 m).
      { intros l m H. induction H as [m H|l1 l2 t q wr m v H IH Hv]; [split; [reflexivity|exact H]|].
        destruct IH as (E & _). destruct l1; discriminate. }
      split.
      * intros l m t q rd H Hin. apply W in H. destruct H as (_ & H). cbn [ph_snd] in Hin.
        apply in_map_iff in Hin. destruct Hin as (x & E & _). injection E as <- <- <-. apply (Hrd root 0); auto.
      * intros m H. apply W in H. destruct H as (_ & H1 & H2). split; [|exact H2]. intros i Hi _. apply H1; auto.
    + set (o := bc_off n root p) in *. destruct k as [|[|k]]; cbn [nth_error] in Hk; [| |destruct k; discriminate];
        injection Hk as <-.
      * set (hh := {| ph_loc := fun b : nat -> T => b; ph_snd := []; ph_rcv := [bc_recv nelems (bc_real n root (fst (bc_window n o)))] |}).
        assert (W : forall l m, within bc_has (fun _ _ _ v => v = bread (buf root) 0 nelems) p 0 hh l m ->
                 (l = ph_rcv hh /\ bc_has p 0 m) \/ (l = [] /\ bc_has p 1 m)).
        { intros l m H. induction H as [m H|l1 l2 t q wr m v H IH Hv]; [left; split; [reflexivity|exact H]|].
          right. destruct IH as [(E & IH)|(E & _)]; [|destruct l1; discriminate]. cbn [hh ph_rcv] in E.
          destruct l1 as [|x l1]; [|destruct l1; discriminate]. injection E as -> -> -> ->. split; [reflexivity|]. subst v.
          rewrite firstn_all2 by (rewrite bread_length; lia). destruct IH as (_ & I2). split.
          - intros i Hi _. rewrite (bwrite_in _ _ _ _ (buf root 0)) by (rewrite bread_length; lia).
            rewrite Nat.sub_0_r, nth_bread by exact Hi. reflexivity.
          - intros i Hi. rewrite bwrite_out by (rewrite bread_length; lia). apply I2. exact Hi. }
        split; [intros l m t q rd _ []|]. intros m H. apply W in H. destruct H as [(E & _)|(_ & H)]; [discriminate|exact H].
      * set (hh := {| ph_loc := fun b : nat -> T => b; ph_snd := map (bc_send nelems) (bc_sends_child n root o); ph_rcv := [] |}).
        assert (W : forall l m, within bc_has (fun _ _ _ v => v = bread (buf root) 0 nelems) p 1 hh l m ->
                 l = [] /\ bc_has p 1 m).
        { intros l m H. induction H as [m H|l1 l2 t q wr m v H IH Hv]; [split; [reflexivity|exact H]|].
          destruct IH as (E & _). destruct l1; discriminate. }
        split.
        -- intros l m t q rd H Hin. apply W in H. destruct H as (_ & H). cbn [hh ph_snd] in Hin.
           apply in_map_iff in Hin. destruct Hin as (x & E & _). injection E as <- <- <-. apply (Hrd p 1); auto.
        -- intros m H. apply W in H. destruct H as (_ & H1 & H2). split; [|exact H2]. intros i Hi _. apply H1; auto.
Qed.
End Tree.
