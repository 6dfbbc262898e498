(** The lockstep run of the allreduce schedule. *)
From Coq Require Import List Arith Lia Bool.
From Verif Require Import RdModel RdProof AgProof ArModel ArProof ShModel ShProof.
Import ListNotations.

(** Reduction of [f lo .. f (lo+len-1)], in this order. *)
Definition fsum {T} (op : T -> T -> T) (f : nat -> T) (lo len : nat) : T :=
  fold_left op (map f (seq (S lo) (len - 1))) (f lo).

Lemma fsum_split : forall T (op : T -> T -> T) f lo a b,
  (forall x y z, op x (op y z) = op (op x y) z) -> 0 < a -> 0 < b ->
  fsum op f lo (a + b) = op (fsum op f lo a) (fsum op f (lo + a) b).
Proof.
  intros T op f lo a b Ha H1 H2. unfold fsum.
  destruct a as [|a]; [lia|]. destruct b as [|b]; [lia|].
  replace (S a + S b - 1) with (a + S b) by lia. replace (S a - 1) with a by lia. replace (S b - 1) with b by lia.
  rewrite seq_app, map_app, fold_left_app. cbn [seq map fold_left].
  replace (lo + S a) with (S lo + a) by lia.
  generalize (fold_left op (map f (seq (S lo) a)) (f lo)) as x.
  generalize (f (S lo + a)) as y. generalize (map f (seq (S (S lo + a)) b)) as l.
  induction l as [|z l IH]; intros y x; [reflexivity|]. cbn [fold_left].
  rewrite <- Ha. rewrite IH. reflexivity.
Qed.

(** * Real ranks of a block of virtual ranks *)
Section V2r.
Variables n vn : nat.
Hypothesis Hf : folds n vn.
Let rr := virtual_to_real n vn.

Lemma v2r_same : forall v w, v < w -> rr v = rr w -> w = S v /\ v mod 2 = 0 /\ w < 2 * (vn - n).
Proof.
  intros v w Hvw H. unfold rr, virtual_to_real in H. destruct Hf as (H1 & H2 & H3).
  pose proof (Nat.div_mod v 2 ltac:(lia)). pose proof (Nat.mod_upper_bound v 2 ltac:(lia)).
  pose proof (Nat.div_mod w 2 ltac:(lia)). pose proof (Nat.mod_upper_bound w 2 ltac:(lia)).
  destruct (Nat.leb_spec (2 * (vn - n)) v), (Nat.leb_spec (2 * (vn - n)) w); lia.
Qed.

Lemma v2r_even : forall a b, a < b -> rr (2 * a) < rr (2 * b).
Proof.
  intros a b Hab. unfold rr, virtual_to_real. destruct Hf as (H1 & H2 & H3).
  rewrite !(Nat.mul_comm 2), !Nat.div_mul by lia.
  destruct (Nat.leb_spec ((vn - n) * 2) (a * 2)), (Nat.leb_spec ((vn - n) * 2) (b * 2)); lia.
Qed.

Lemma v2r_pair : forall a, rr (2 * a + 1) = rr (2 * a) /\ rr (2 * a + 2) = S (rr (2 * a)) \/
  rr (2 * a + 1) = S (rr (2 * a)) /\ rr (2 * a + 2) = S (S (rr (2 * a))).
Proof.
  intros a. unfold rr, virtual_to_real. destruct Hf as (H1 & H2 & H3).
  replace ((2 * a + 1) / 2) with a by (apply (Nat.div_unique _ 2 a 1); lia).
  replace ((2 * a + 2) / 2) with (S a) by (apply (Nat.div_unique _ 2 (S a) 0); lia).
  replace ((2 * a) / 2) with a by (apply (Nat.div_unique _ 2 a 0); lia).
  destruct (Nat.leb_spec (2 * (vn - n)) (2 * a + 1)), (Nat.leb_spec (2 * (vn - n)) (2 * a + 2)),
    (Nat.leb_spec (2 * (vn - n)) (2 * a)); lia.
Qed.

Lemma v2r_0 : rr 0 = 0.
Proof. unfold rr, virtual_to_real. destruct (2 * (vn - n) <=? 0); reflexivity. Qed.

Lemma v2r_vn : rr vn = n.
Proof.
  unfold rr, virtual_to_real. destruct Hf as (H1 & H2 & H3).
  destruct (Nat.leb_spec (2 * (vn - n)) vn); lia.
Qed.

Lemma not_shared_high : forall v r, 0 < r -> rr (flip v r) <> rr v.
Proof.
  intros v r Hr He. destruct (flip_facts v r) as (F1 & F2 & _). cbv zeta in F1, F2.
  assert (Hg : 2 <= 2 ^ r).
  { destruct r as [|r']; [lia|]. cbn [Nat.pow]. pose proof (pow2_pos r'). lia. }
  destruct (is_low v (2 ^ r)).
  - destruct (F1 eq_refl) as (_ & E). symmetry in He. apply v2r_same in He; lia.
  - destruct (F2 eq_refl) as (_ & E). apply v2r_same in He; lia.
Qed.
End V2r.

(** * The run *)
Section Run.
Context {T : Type}.
Variable op : T -> T -> T.
Hypothesis Hassoc : forall x y z, op x (op y z) = op (op x y) z.
Hypothesis Hcomm : forall x y, op x y = op y x.
Variables n ne : nat.
Variable src : nat -> nat -> T.
Hypothesis Hn : 0 < n.
Let L := log2_of n.
Let rr := virtual_to_real n (2 ^ L).
Let s := ar_sched op n ne src.

Lemma ar_pow : pow2_of n = 2 ^ L.
Proof. apply (ctree_ok n). Qed.
Lemma ar_folds : folds n (2 ^ L).
Proof. rewrite <- ar_pow. apply folds_pow2. exact Hn. Qed.
Lemma ar_np : sc_np s = 2 ^ L.
Proof. exact ar_pow. Qed.

(** The bit in which the partners of round [r] differ. *)
Definition bit (r : nat) : nat := if r <? L then r else 2 * L - 1 - r.

Lemma bit_lt : forall r, r < 2 * L -> bit r < L.
Proof. intros r Hr. unfold bit. destruct (Nat.ltb_spec r L); lia. Qed.

Lemma ar_partner_eq : forall r v, r < 2 * L -> v < 2 ^ L ->
  ar_partner n ne r v = if rr (flip v (bit r)) =? rr v then None else Some (flip v (bit r)).
Proof.
  intros r v Hr Hv. unfold ar_partner. fold L. rewrite ar_pow.
  assert (E : exists b a, wilke_act L ne v r = Some (b, a) /\ w_vp a = flip v (bit r)).
  { unfold bit. destruct (Nat.ltb_spec r L) as [H|H].
    - rewrite wilke_act_lo by exact H. eexists; eexists; split; [reflexivity|apply act_at_vp].
    - rewrite wilke_act_hi by lia. eexists; eexists; split; [reflexivity|]. apply act_at_vp. }
  destruct E as (b & a & -> & ->).
  pose proof (flip_lt v (bit r) L (bit_lt r Hr) Hv) as Hfl.
  pose proof (shared_role_spec n (2 ^ L) v (flip v (bit r)) ar_folds Hv Hfl) as Hs.
  destruct (shared_role n (2 ^ L) v (flip v (bit r))), (Nat.eqb_spec (rr (flip v (bit r))) (rr v)) as [E|E];
    try reflexivity; unfold rr in E.
  - exfalso. apply E. apply Hs. reflexivity.
  - apply Hs in E. discriminate.
Qed.

Lemma ar_partner_high : forall r v, r < 2 * L -> v < 2 ^ L -> 0 < bit r ->
  ar_partner n ne r v = Some (flip v (bit r)).
Proof.
  intros r v Hr Hv Hb. rewrite ar_partner_eq by assumption.
  destruct (Nat.eqb_spec (rr (flip v (bit r))) (rr v)) as [E|E]; [|reflexivity].
  exfalso. exact (not_shared_high n (2 ^ L) ar_folds v (bit r) Hb E).
Qed.

Lemma ar_matched : matched s.
Proof.
  assert (H : forall r v q, r < 2 * L -> v < 2 ^ L -> ar_partner n ne r v = Some q ->
    q < 2 ^ L /\ ar_partner n ne r q = Some v).
  { intros r v q Hr Hv H. rewrite ar_partner_eq in H by assumption.
    destruct (Nat.eqb_spec (rr (flip v (bit r))) (rr v)) as [E|E]; [discriminate|]. injection H as <-.
    pose proof (flip_lt v (bit r) L (bit_lt r Hr) Hv) as Hfl. split; [exact Hfl|].
    rewrite ar_partner_eq by assumption. destruct (flip_facts v (bit r)) as (_ & _ & Hff & _).
    rewrite Hff. destruct (Nat.eqb_spec (rr v) (rr (flip v (bit r)))) as [E2|E2]; [|reflexivity].
    symmetry in E2. contradiction. }
  intros r p q Hr Hp. rewrite ar_np in *. change (sc_nr s) with (2 * L) in Hr.
  cbn [s ar_sched sc_to sc_from]. split; apply H; assumption.
Qed.

(** Region of a role in a round. *)
Definition racts (r v : nat) : wact :=
  if r <? L then act_at ne v r else mirror (act_at ne v (bit r)).

Lemma wilke_racts : forall r v, r < 2 * L -> wilke_act L ne v r = Some (r <? L, racts r v).
Proof.
  intros r v Hr. unfold racts, bit. destruct (Nat.ltb_spec r L).
  - apply wilke_act_lo. exact H.
  - apply wilke_act_hi. lia.
Qed.

Lemma ar_out : forall r v b, r < 2 * L -> sc_out s r v b = bread b (w_so (racts r v)) (w_sn (racts r v)).
Proof. intros r v b Hr. cbn [s ar_sched sc_out]. fold L. rewrite wilke_racts by exact Hr. reflexivity. Qed.
Lemma ar_in_lo : forall r v b m, r < L ->
  sc_in s r v b m = breduce op b (w_ro (act_at ne v r)) (firstn (w_rn (act_at ne v r)) m).
Proof.
  intros r v b m Hr. cbn [s ar_sched sc_in]. fold L. rewrite wilke_racts by lia.
  unfold racts. rewrite (proj2 (Nat.ltb_lt r L) Hr). reflexivity.
Qed.
Lemma ar_in_hi : forall r v b m, L <= r < 2 * L ->
  sc_in s r v b m = bwrite b (w_so (act_at ne v (bit r))) (firstn (w_sn (act_at ne v (bit r))) m).
Proof.
  intros r v b m Hr. cbn [s ar_sched sc_in]. fold L. rewrite wilke_racts by lia.
  unfold racts. rewrite (proj2 (Nat.ltb_ge r L)) by lia. reflexivity.
Qed.

Lemma breduce_out : forall (b : nat -> T) o l i, i < o \/ o + length l <= i -> breduce op b o l i = b i.
Proof.
  intros b o l i H. unfold breduce. destruct (Nat.ltb_spec i o); [reflexivity|].
  rewrite (proj2 (nth_error_None l (i - o))) by lia. reflexivity.
Qed.
Lemma breduce_in : forall (b : nat -> T) o l i d, o <= i < o + length l ->
  breduce op b o l i = op (b i) (nth (i - o) l d).
Proof.
  intros b o l i d H. unfold breduce. destruct (Nat.ltb_spec i o); [lia|].
  rewrite (nth_error_nth' l d) by lia. reflexivity.
Qed.

(** What sc_in does outside the received region: nothing. *)
Lemma ar_in_out : forall r v b m i, r < 2 * L ->
  (i < w_ro (racts r v) \/ w_ro (racts r v) + w_rn (racts r v) <= i) -> sc_in s r v b m i = b i.
Proof.
  intros r v b m i Hr Hi. unfold racts in Hi. destruct (Nat.ltb_spec r L) as [H|H].
  - rewrite ar_in_lo by exact H. apply breduce_out. rewrite firstn_length. lia.
  - rewrite ar_in_hi by lia. cbn [mirror w_ro w_rn] in Hi. apply bwrite_out. rewrite firstn_length. lia.
Qed.

Lemma racts_disj : forall r v, w_so (racts r v) + w_sn (racts r v) <= w_ro (racts r v) \/
  w_ro (racts r v) + w_rn (racts r v) <= w_so (racts r v).
Proof.
  intros r v. unfold racts. destruct (Nat.ltb_spec r L) as [H|H].
  - pose proof (act_at_split ne r v 0) as Hs. destruct (reg ne v r) as [o l]. apply Hs.
  - pose proof (act_at_split ne (bit r) v 0) as Hs. destruct (reg ne v (bit r)) as [o l].
    cbn [mirror w_so w_sn w_ro w_rn]. destruct Hs as (_ & Hs). lia.
Qed.

Lemma ar_no_race : no_race s.
Proof.
  intros r p q Hr Hp Hq. change (sc_nr s) with (2 * L) in Hr.
  rewrite (ar_out r p) by exact Hr. rewrite (ar_out r p (amem s r p)) by exact Hr.
  apply bread_ext. intros i Hi. apply ar_in_out; [exact Hr|].
  pose proof (racts_disj r p). lia.
Qed.

Definition inreg (v r o : nat) : Prop := fst (reg ne v r) <= o < fst (reg ne v r) + snd (reg ne v r).

Lemma inreg_S : forall v r o, inreg v (S r) o <->
  w_ro (act_at ne v r) <= o < w_ro (act_at ne v r) + w_rn (act_at ne v r).
Proof. intros v r o. unfold inreg. rewrite act_at_reg. reflexivity. Qed.
Lemma inreg_sent : forall v r o, inreg (flip v r) (S r) o <->
  w_so (act_at ne v r) <= o < w_so (act_at ne v r) + w_sn (act_at ne v r).
Proof.
  intros v r o. rewrite inreg_S. destruct (act_at_flip ne r v) as (_ & _ & -> & ->). reflexivity.
Qed.
Lemma inreg_split : forall v r o, inreg v r o <-> inreg v (S r) o \/ inreg (flip v r) (S r) o.
Proof.
  intros v r o. rewrite inreg_S, inreg_sent. pose proof (act_at_split ne r v o) as H.
  unfold inreg. destruct (reg ne v r) as [x l]. cbn [fst snd]. destruct H as (H & _). tauto.
Qed.
Lemma inreg_disj : forall v r o, inreg v (S r) o -> inreg (flip v r) (S r) o -> False.
Proof.
  intros v r o. rewrite inreg_S, inreg_sent. pose proof (act_at_split ne r v o) as H.
  destruct (reg ne v r) as [x l]. destruct H as (_ & H). lia.
Qed.
Lemma inreg_down : forall v r o, inreg v (S r) o -> inreg v r o.
Proof. intros v r o H. apply inreg_split. left. exact H. Qed.

Lemma ar_smem_some : forall r v, r < 2 * L -> v < 2 ^ L -> ar_partner n ne r v = Some (flip v (bit r)) ->
  smem s (S r) v = sc_in s r v (smem s r v) (sc_out s r (flip v (bit r)) (smem s r (flip v (bit r)))).
Proof.
  intros r v Hr Hv Hp. rewrite smem_S. cbn [s ar_sched sc_post]. unfold bmem, amem.
  change (sc_from s r v) with (ar_partner n ne r v). rewrite Hp. reflexivity.
Qed.
Lemma ar_smem_none : forall r v, ar_partner n ne r v = None -> smem s (S r) v = smem s r v.
Proof.
  intros r v Hp. rewrite smem_S. cbn [s ar_sched sc_post]. unfold bmem, amem.
  change (sc_from s r v) with (ar_partner n ne r v). rewrite Hp. reflexivity.
Qed.

(** A reducing round combines the two partners' values in the region kept. *)
Lemma ar_reduce : forall r v o, r < L -> v < 2 ^ L -> ar_partner n ne r v = Some (flip v r) ->
  inreg v (S r) o -> smem s (S r) v o = op (smem s r v o) (smem s r (flip v r) o).
Proof.
  intros r v o Hr Hv Hp Ho. assert (Hb : bit r = r) by (unfold bit; rewrite (proj2 (Nat.ltb_lt r L) Hr); reflexivity).
  rewrite ar_smem_some by (rewrite ?Hb; try assumption; lia). rewrite Hb.
  rewrite ar_in_lo by exact Hr. rewrite ar_out by lia.
  apply inreg_S in Ho. destruct (act_at_flip ne r v) as (A1 & A2 & _).
  unfold racts. rewrite (proj2 (Nat.ltb_lt r L) Hr). rewrite A1, A2.
  set (a := act_at ne v r) in *.
  rewrite (firstn_all2 (n:=w_rn a)) by (rewrite bread_length; lia).
  rewrite (breduce_in _ _ _ _ (src 0 0)) by (rewrite bread_length; lia).
  f_equal. rewrite nth_bread by lia. f_equal. lia.
Qed.

(** A gathering round takes over the partner's region. *)
Lemma ar_gather : forall r v o, L <= r < 2 * L -> v < 2 ^ L -> ar_partner n ne r v = Some (flip v (bit r)) ->
  (inreg v (S (bit r)) o -> smem s (S r) v o = smem s r v o) /\
  (inreg (flip v (bit r)) (S (bit r)) o -> smem s (S r) v o = smem s r (flip v (bit r)) o).
Proof.
  intros r v o Hr Hv Hp. rewrite ar_smem_some by (try assumption; lia).
  set (q := flip v (bit r)) in *. set (a := act_at ne v (bit r)).
  rewrite ar_in_hi by exact Hr. fold a. rewrite ar_out by lia.
  unfold racts. rewrite (proj2 (Nat.ltb_ge r L)) by lia. cbn [mirror w_so w_sn].
  destruct (act_at_flip ne (bit r) v) as (A1 & A2 & A3 & A4). fold q a in A1, A2, A3, A4. rewrite A3, A4.
  rewrite (firstn_all2 (n:=w_sn a)) by (rewrite bread_length; lia).
  split; intros Ho.
  - apply bwrite_out. rewrite bread_length. apply inreg_S in Ho. fold a in Ho.
    pose proof (act_at_split ne (bit r) v o) as Hs. destruct (reg ne v (bit r)) as [x l]. fold a in Hs.
    cbv zeta in Hs. lia.
  - apply inreg_sent in Ho. fold a in Ho.
    rewrite (bwrite_in _ _ _ _ (src 0 0)) by (rewrite bread_length; lia).
    rewrite nth_bread by lia. f_equal. lia.
Qed.

Definition blo (r v : nat) : nat := 2 ^ r * (v / 2 ^ r).

Lemma blo_even : forall r v, 0 < r -> exists a, blo r v = 2 * a /\ blo r v + 2 ^ r = 2 * (a + 2 ^ (r - 1)).
Proof.
  intros r v Hr. destruct r as [|r]; [lia|]. exists (2 ^ r * (v / 2 ^ S r)).
  unfold blo. cbn [Nat.pow]. replace (S r - 1) with r by lia.
  split; [|rewrite Nat.mul_add_distr_l]; rewrite Nat.mul_assoc; reflexivity.
Qed.

(** The block of 2^(r+1) is made of the blocks of the two partners. *)
Lemma blo_flip : forall r v,
  (is_low v (2 ^ r) = true -> blo (S r) v = blo r v /\ blo r (flip v r) = blo r v + 2 ^ r) /\
  (is_low v (2 ^ r) = false -> blo (S r) v = blo r (flip v r) /\ blo r v = blo r (flip v r) + 2 ^ r).
Proof.
  intros r v.
  assert (Hlow : forall w, is_low w (2 ^ r) = true ->
     blo (S r) w = blo r w /\ blo r (w + 2 ^ r) = blo r w + 2 ^ r).
  { intros w Hw. pose proof (pow2_pos r) as Hp. unfold blo.
    apply is_low_spec in Hw; [|exact Hp]. split.
    - cbn [Nat.pow]. rewrite (Nat.mul_comm 2 (2 ^ r)) at 2. rewrite <- Nat.div_div by lia.
      pose proof (Nat.div_mod (w / 2 ^ r) 2 ltac:(lia)) as Hd. rewrite Hw in Hd.
      rewrite Hd at 2. rewrite Nat.add_0_r. rewrite (Nat.mul_comm 2 (2 ^ r)), <- Nat.mul_assoc. reflexivity.
    - replace (w + 2 ^ r) with (w + 1 * 2 ^ r) by lia. rewrite Nat.div_add by lia. lia. }
  destruct (flip_facts v r) as (F1 & F2 & _ & F4 & _). cbv zeta in F1, F2. split; intros H.
  - destruct (F1 H) as (_ & ->). apply Hlow. exact H.
  - destruct (F2 H) as (Hl & Hv). destruct (Hlow (flip v r) Hl) as (H1 & H2). rewrite <- Hv in H2.
    split; [|exact H2]. rewrite <- H1. unfold blo. rewrite F4. reflexivity.
Qed.

Definition part (r v o : nat) : T :=
  fsum op (fun j => src j o) (rr (blo r v)) (rr (blo r v + 2 ^ r) - rr (blo r v)).

Lemma part_join : forall r v o, 0 < r -> op (part r v o) (part r (flip v r) o) = part (S r) v o.
Proof.
  assert (Hlow : forall r lo hi o, 0 < r -> (exists a, lo = 2 * a /\ lo + 2 ^ r = 2 * (a + 2 ^ (r - 1))) ->
     hi = lo + 2 ^ r ->
     op (fsum op (fun j => src j o) (rr lo) (rr (lo + 2 ^ r) - rr lo))
        (fsum op (fun j => src j o) (rr hi) (rr (hi + 2 ^ r) - rr hi)) =
     fsum op (fun j => src j o) (rr lo) (rr (lo + 2 ^ S r) - rr lo)).
  { intros r lo hi o Hr (a & A1 & A2) ->. pose proof (pow2_pos (r - 1)) as Hp.
    assert (M1 : rr lo < rr (lo + 2 ^ r)).
    { rewrite A2, A1. apply (v2r_even n (2 ^ L) ar_folds). lia. }
    assert (M2 : rr (lo + 2 ^ r) < rr (lo + 2 ^ r + 2 ^ r)).
    { replace (lo + 2 ^ r + 2 ^ r) with (2 * (a + 2 ^ (r - 1) + 2 ^ (r - 1))) by lia.
      rewrite A2. apply (v2r_even n (2 ^ L) ar_folds). lia. }
    replace (lo + 2 ^ S r) with (lo + 2 ^ r + 2 ^ r) by (cbn [Nat.pow]; lia).
    replace (rr (lo + 2 ^ r + 2 ^ r) - rr lo) with
      ((rr (lo + 2 ^ r) - rr lo) + (rr (lo + 2 ^ r + 2 ^ r) - rr (lo + 2 ^ r))) by lia.
    rewrite fsum_split by (assumption || lia).
    replace (rr lo + (rr (lo + 2 ^ r) - rr lo)) with (rr (lo + 2 ^ r)) by lia. reflexivity. }
  intros r v o Hr. destruct (blo_flip r v) as (B1 & B2). unfold part.
  destruct (is_low v (2 ^ r)).
  - destruct (B1 eq_refl) as (-> & Hx). apply Hlow; [exact Hr|apply blo_even; exact Hr|exact Hx].
  - destruct (B2 eq_refl) as (-> & Hx). rewrite Hcomm.
    apply Hlow; [exact Hr|apply blo_even; exact Hr|exact Hx].
Qed.

(** After [r] reducing rounds a role holds the sum over its block. *)
Lemma ar_reduced : forall r v o, 0 < r <= L -> v < 2 ^ L -> inreg v r o -> smem s r v o = part r v o.
Proof.
  induction r as [|r IH]; intros v o Hr Hv Ho; [lia|].
  destruct (Nat.eq_dec r 0) as [->|Hr0].
  - assert (Hb : bit 0 = 0) by (unfold bit; rewrite (proj2 (Nat.ltb_lt 0 L)) by lia; reflexivity).
    pose proof (ar_partner_eq 0 v ltac:(lia) Hv) as Hp. rewrite Hb in Hp.
    assert (H0 : forall w, smem s 0 w o = src (rr w) o).
    { intros w. cbn [smem s ar_sched sc_init]. rewrite ar_pow. reflexivity. }
    assert (Hblo : forall w, blo 1 w = 2 * (w / 2)) by (intros w; reflexivity).
    assert (Hpart : exists x y, part 1 v o = fsum op (fun j => src j o) x (y - x) /\
              x = rr (2 * (v / 2)) /\ y = rr (2 * (v / 2) + 2)).
    { eexists; eexists; split; [|split]; reflexivity. }
    destruct Hpart as (x & y & -> & Ex & Ey).
    destruct (flip_facts v 0) as (F1 & F2 & _). cbv zeta in F1, F2. cbn [Nat.pow] in F1, F2.
    pose proof (Nat.div_mod v 2 ltac:(lia)) as Hd. pose proof (Nat.mod_upper_bound v 2 ltac:(lia)) as Hmd.
    assert (Hil : is_low v 1 = true <-> v mod 2 = 0).
    { rewrite is_low_spec by lia. rewrite Nat.div_1_r. reflexivity. }
    pose proof (v2r_pair n (2 ^ L) ar_folds (v / 2)) as Hpair. fold rr in Hpair.
    destruct (is_low v 1) eqn:El.
    + destruct (F1 eq_refl) as (_ & Ef). assert (E0 : v mod 2 = 0) by (apply Hil; reflexivity).
      assert (Ev : 2 * (v / 2) = v) by lia. rewrite Ev in Hpair, Ex, Ey.
      destruct Hpair as [(P1 & P2)|(P1 & P2)].
      * rewrite ar_smem_none.
        -- rewrite H0, Ex, Ey, P2. replace (S (rr v) - rr v) with 1 by lia. reflexivity.
        -- rewrite Hp, Ef, P1, Nat.eqb_refl. reflexivity.
      * rewrite ar_reduce.
        -- rewrite !H0, Ef, P1, Ex, Ey, P2. replace (S (S (rr v)) - rr v) with 2 by lia. reflexivity.
        -- lia.
        -- exact Hv.
        -- rewrite Hp, Ef, P1. destruct (Nat.eqb_spec (S (rr v)) (rr v)); [lia|reflexivity].
        -- exact Ho.
    + destruct (F2 eq_refl) as (_ & Ef). assert (E1 : v mod 2 = 1).
      { destruct (Nat.eq_dec (v mod 2) 0) as [H|H]; [apply Hil in H; discriminate|lia]. }
      assert (Ev : 2 * (v / 2) = flip v 0) by lia. rewrite Ev in Hpair, Ex, Ey.
      replace (flip v 0 + 1) with v in Hpair by lia.
      destruct Hpair as [(P1 & P2)|(P1 & P2)].
      * rewrite ar_smem_none.
        -- rewrite H0, Ex, Ey, P2. replace (S (rr (flip v 0)) - rr (flip v 0)) with 1 by lia.
           rewrite P1. reflexivity.
        -- rewrite Hp, P1, Nat.eqb_refl. reflexivity.
      * rewrite ar_reduce.
        -- rewrite !H0, P1, Ex, Ey, P2. replace (S (S (rr (flip v 0))) - rr (flip v 0)) with 2 by lia.
           rewrite Hcomm. reflexivity.
        -- lia.
        -- exact Hv.
        -- rewrite Hp, P1. destruct (Nat.eqb_spec (rr (flip v 0)) (S (rr (flip v 0)))); [lia|reflexivity].
        -- exact Ho.
  - assert (Hb : bit r = r) by (unfold bit; rewrite (proj2 (Nat.ltb_lt r L)) by lia; reflexivity).
    pose proof (ar_partner_high r v ltac:(lia) Hv ltac:(lia)) as Hp. rewrite Hb in Hp.
    rewrite ar_reduce by (try assumption; lia).
    rewrite (IH v o) by (try assumption; try lia; apply inreg_down; exact Ho).
    rewrite (IH (flip v r) o).
    + apply part_join. lia.
    + lia.
    + apply flip_lt; [lia|exact Hv].
    + pose proof (inreg_down v r o Ho) as H. unfold inreg in *. rewrite reg_flip. exact H.
Qed.

Definition total (o : nat) : T := fsum op (fun j => src j o) 0 n.

Lemma part_total : forall v o, v < 2 ^ L -> part L v o = total o.
Proof.
  intros v o Hv. unfold part, total, blo. rewrite Nat.div_small by exact Hv.
  rewrite Nat.mul_0_r, Nat.add_0_l. pose proof (v2r_0 n (2 ^ L)) as E0.
  pose proof (v2r_vn n (2 ^ L) ar_folds) as E1. fold rr in E0, E1. rewrite E0, E1, Nat.sub_0_r. reflexivity.
Qed.

Lemma ar_gathered : forall k v o, k < L -> v < 2 ^ L -> inreg v (L - k) o -> smem s (L + k) v o = total o.
Proof.
  induction k as [|k IH]; intros v o Hk Hv Ho.
  - rewrite Nat.add_0_r. rewrite Nat.sub_0_r in Ho. rewrite ar_reduced by (try assumption; lia).
    apply part_total. exact Hv.
  - assert (Hb : bit (L + k) = L - S k).
    { unfold bit. rewrite (proj2 (Nat.ltb_ge (L + k) L)) by lia. lia. }
    assert (Hp : ar_partner n ne (L + k) v = Some (flip v (bit (L + k)))).
    { apply ar_partner_high; [lia|exact Hv|lia]. }
    destruct (ar_gather (L + k) v o ltac:(lia) Hv Hp) as (G1 & G2). rewrite Hb in G1, G2.
    replace (S (L - S k)) with (L - k) in G1, G2 by lia. replace (L + S k) with (S (L + k)) by lia.
    apply inreg_split in Ho. replace (S (L - S k)) with (L - k) in Ho by lia. destruct Ho as [Ho|Ho].
    + rewrite G1 by exact Ho. apply IH; [lia|exact Hv|exact Ho].
    + rewrite G2 by exact Ho. apply IH; [lia|apply flip_lt; [lia|exact Hv]|exact Ho].
Qed.

(** The part of the rank's buffer a role works on: everything, or one half if
    its first partner is the other role of the same rank. *)
Definition foot (v o : nat) : Prop := if rr (flip v 0) =? rr v then inreg v 1 o else o < ne.

Lemma inreg_0 : forall v o, inreg v 0 o <-> o < ne.
Proof. intros v o. unfold inreg. cbn [reg fst snd]. lia. Qed.

Lemma ar_final : forall v o, 0 < L -> v < 2 ^ L -> foot v o -> smem s (2 * L) v o = total o.
Proof.
  intros v o HL Hv Ho.
  assert (Hb : bit (L + (L - 1)) = 0).
  { unfold bit. rewrite (proj2 (Nat.ltb_ge (L + (L - 1)) L)) by lia. lia. }
  assert (E2 : 2 * L = S (L + (L - 1))) by lia.
  pose proof (ar_partner_eq (L + (L - 1)) v ltac:(lia) Hv) as Hp. rewrite Hb in Hp.
  unfold foot in Ho. rewrite E2. destruct (Nat.eqb_spec (rr (flip v 0)) (rr v)) as [E|E].
  - rewrite ar_smem_none by exact Hp. apply ar_gathered; [lia|exact Hv|].
    replace (L - (L - 1)) with 1 by lia. exact Ho.
  - destruct (ar_gather (L + (L - 1)) v o ltac:(lia) Hv) as (G1 & G2); [rewrite Hb; exact Hp|].
    rewrite Hb in G1, G2. apply (inreg_0 v) in Ho. apply inreg_split in Ho.
    assert (HG : forall w, w < 2 ^ L -> inreg w 1 o -> smem s (L + (L - 1)) w o = total o).
    { intros w Hw H1. apply ar_gathered; [lia|exact Hw|]. replace (L - (L - 1)) with 1 by lia. exact H1. }
    destruct Ho as [Ho|Ho].
    + rewrite G1 by exact Ho. apply HG; assumption.
    + rewrite G2 by exact Ho. apply HG; [apply flip_lt; [lia|exact Hv]|exact Ho].
Qed.

(** * Locality *)
Lemma racts_foot : forall r v o, r < 2 * L -> v < 2 ^ L -> ar_partner n ne r v <> None ->
  (w_so (racts r v) <= o < w_so (racts r v) + w_sn (racts r v) \/
   w_ro (racts r v) <= o < w_ro (racts r v) + w_rn (racts r v)) -> foot v o.
Proof.
  intros r v o Hr Hv Hp Ho.
  assert (Hreg : inreg v (bit r) o).
  { pose proof (act_at_split ne (bit r) v o) as Hs. unfold inreg. unfold racts, bit in *.
    destruct (Nat.ltb_spec r L) as [H|H].
    - destruct (reg ne v r) as [x l]. apply Hs. exact Ho.
    - destruct (reg ne v (2 * L - 1 - r)) as [x l]. apply Hs. cbn [mirror w_so w_sn w_ro w_rn] in Ho. tauto. }
  assert (Hdown : forall k, k <= bit r -> inreg v (bit r - k) o).
  { induction k as [|k IH]; intros Hk; [rewrite Nat.sub_0_r; exact Hreg|].
    apply inreg_down. replace (S (bit r - S k)) with (bit r - k) by lia. apply IH. lia. }
  unfold foot. destruct (Nat.eqb_spec (rr (flip v 0)) (rr v)) as [E|E].
  - destruct (Nat.eq_dec (bit r) 0) as [Hb|Hb].
    + rewrite ar_partner_eq in Hp by assumption. rewrite Hb, E, Nat.eqb_refl in Hp. contradiction.
    + specialize (Hdown (bit r - 1) ltac:(lia)). replace (bit r - (bit r - 1)) with 1 in Hdown by lia. exact Hdown.
  - specialize (Hdown (bit r) ltac:(lia)). rewrite Nat.sub_diag in Hdown.
    exact (proj1 (inreg_0 v o) Hdown).
Qed.

Lemma ar_partner_round : forall r v, ar_partner n ne r v <> None -> r < 2 * L.
Proof.
  intros r v H. destruct (Nat.lt_ge_cases r (2 * L)) as [Hr|Hr]; [exact Hr|exfalso].
  apply H. unfold ar_partner, wilke_act. fold L. rewrite (proj2 (Nat.ltb_ge r L)) by lia.
  rewrite (proj2 (Nat.ltb_ge r (2 * L))) by lia. reflexivity.
Qed.

Lemma flip_0 : forall v, flip v 0 = if v mod 2 =? 0 then v + 1 else v - 1.
Proof. intros v. unfold flip, is_low. cbn [Nat.pow]. rewrite Nat.div_1_r. reflexivity. Qed.

Lemma ar_local : local s rr foot src.
Proof.
  constructor.
  - intros r v b b' Hv Ht Hb. rewrite ar_np in Hv. pose proof (ar_partner_round r v Ht) as Hr.
    rewrite !ar_out by exact Hr. apply bread_ext. intros i Hi. apply Hb.
    apply (racts_foot r v i Hr Hv Ht). left. exact Hi.
  - intros r v b b' m Hv Ht Hb i Hi. pose proof (ar_partner_round r v Ht) as Hr.
    destruct (Nat.lt_ge_cases r L) as [H|H].
    + rewrite !ar_in_lo by exact H. unfold breduce. rewrite (Hb i Hi). reflexivity.
    + rewrite !ar_in_hi by lia. unfold bwrite. rewrite (Hb i Hi). reflexivity.
  - intros r v b m i Hv Ht Hi. rewrite ar_np in Hv. pose proof (ar_partner_round r v Ht) as Hr.
    apply ar_in_out; [exact Hr|].
    destruct (Nat.lt_ge_cases i (w_ro (racts r v))) as [H|H]; [left; exact H|right].
    destruct (Nat.lt_ge_cases i (w_ro (racts r v) + w_rn (racts r v))) as [H'|H']; [|exact H'].
    exfalso. apply Hi. apply (racts_foot r v i Hr Hv Ht). right. lia.
  - assert (Hlt : forall v w i, v < w -> rr v = rr w -> foot v i -> foot w i -> False).
    { intros v w i Hvw He Hi Hj. destruct (v2r_same n (2 ^ L) ar_folds v w Hvw He) as (-> & Hm2 & _).
      assert (Ef : flip v 0 = S v) by (rewrite flip_0, Hm2; cbn; lia).
      assert (Ef' : flip (S v) 0 = v).
      { rewrite <- Ef at 1. apply (flip_facts v 0). }
      unfold foot in Hi, Hj. rewrite Ef in Hi. rewrite Ef' in Hj. fold rr in He.
      rewrite He in Hi, Hj. rewrite Nat.eqb_refl in Hi, Hj.
      apply (inreg_disj v 0 i Hi). rewrite Ef. exact Hj. }
    intros v w i Hv Hw He Hi Hj. destruct (Nat.lt_trichotomy v w) as [H|[H|H]]; [|exact H|]; exfalso.
    + exact (Hlt v w i H He Hi Hj).
    + exact (Hlt w v i H (eq_sym He) Hj Hi).
  - reflexivity.
  - reflexivity.
  - intros v i Hv Hi. cbn [s ar_sched sc_init]. rewrite ar_pow. reflexivity.
Qed.

(** Every element of a rank's buffer belongs to one of its roles. *)
Lemma foot_cover : forall p o, p < n -> o < ne -> exists v, v < 2 ^ L /\ rr v = p /\ foot v o.
Proof.
  intros p o Hp Ho. destruct ar_folds as (H1 & H2 & H3).
  set (two := 2 ^ L - n).
  destruct (Nat.lt_ge_cases p two) as [H|H].
  - assert (E0 : rr (2 * p) = p).
    { unfold rr, virtual_to_real. fold two. rewrite (proj2 (Nat.leb_gt (2 * two) (2 * p))) by lia.
      rewrite Nat.mul_comm, Nat.div_mul by lia. reflexivity. }
    assert (E1 : rr (2 * p + 1) = p).
    { unfold rr, virtual_to_real. fold two. rewrite (proj2 (Nat.leb_gt (2 * two) (2 * p + 1))) by lia.
      symmetry. apply (Nat.div_unique _ 2 p 1); lia. }
    assert (Ef : flip (2 * p) 0 = 2 * p + 1).
    { rewrite flip_0. replace ((2 * p) mod 2) with 0 by (apply (Nat.mod_unique _ 2 p 0); lia). reflexivity. }
    assert (Ef' : flip (2 * p + 1) 0 = 2 * p).
    { rewrite <- Ef. apply (flip_facts (2 * p) 0). }
    assert (Hs : inreg (2 * p) 0 o) by (apply inreg_0; exact Ho).
    apply inreg_split in Hs. rewrite Ef in Hs. destruct Hs as [Hs|Hs].
    + exists (2 * p). split; [lia|split; [exact E0|]]. unfold foot. rewrite Ef, E1, E0, Nat.eqb_refl. exact Hs.
    + exists (2 * p + 1). split; [lia|split; [exact E1|]]. unfold foot. rewrite Ef', E1, E0, Nat.eqb_refl. exact Hs.
  - assert (Ev : rr (p + two) = p).
    { unfold rr, virtual_to_real. fold two. rewrite (proj2 (Nat.leb_le (2 * two) (p + two))) by lia. lia. }
    exists (p + two). split; [lia|split; [exact Ev|]]. unfold foot.
    destruct (Nat.eqb_spec (rr (flip (p + two) 0)) (rr (p + two))) as [E|E]; [exfalso|exact Ho].
    destruct (flip_facts (p + two) 0) as (F1 & F2 & _). cbv zeta in F1, F2.
    destruct (is_low (p + two) (2 ^ 0)).
    + destruct (F1 eq_refl) as (_ & E2). cbn [Nat.pow] in E2. symmetry in E.
      apply (v2r_same n (2 ^ L) ar_folds) in E; [|lia]. fold two in E. lia.
    + destruct (F2 eq_refl) as (_ & E2). cbn [Nat.pow] in E2.
      apply (v2r_same n (2 ^ L) ar_folds) in E; [|lia]. fold two in E. lia.
Qed.

Lemma foot_ne : forall v o, foot v o -> o < ne.
Proof.
  intros v o H. unfold foot in H. destruct (rr (flip v 0) =? rr v); [|exact H].
  exact (proj1 (inreg_0 v o) (inreg_down v 0 o H)).
Qed.
End Run.
