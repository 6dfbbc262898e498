(** Bruck allgatherv: the lockstep run. *)
From Coq Require Import List Arith Lia Bool.
From Verif Require Import RdModel RdProof AgModel AgProof AvModel.
Import ListNotations.

Section AvSum.
Variables (n : nat) (counts : nat -> nat).
Hypothesis Hn : 0 < n.

Lemma av_recv_add : forall p a b, av_recv n counts p (a + b) = av_recv n counts p a + av_recv n counts ((p + a) mod n) b.
Proof.
  intros p a b. induction b as [|b IH]; [rewrite Nat.add_0_r; cbn; lia|].
  rewrite Nat.add_succ_r. cbn [av_recv]. rewrite IH, Nat.add_mod_idemp_l by lia.
  rewrite (Nat.add_assoc p a b). lia.
Qed.
Lemma av_recv_mod : forall p a, av_recv n counts (p mod n) a = av_recv n counts p a.
Proof. intros p a. induction a as [|a IH]; [reflexivity|]. cbn [av_recv]. rewrite IH, Nat.add_mod_idemp_l by lia. reflexivity. Qed.
Lemma av_recv_0 : forall k, k <= n -> av_recv n counts 0 k = av_sum counts k.
Proof.
  induction k as [|k IH]; intros H; [reflexivity|]. cbn [av_recv av_sum]. rewrite IH by lia.
  cbn [Nat.add]. rewrite Nat.mod_small by lia. reflexivity.
Qed.
Lemma av_recv_up : forall p k, p + k <= n -> av_sum counts p + av_recv n counts p k = av_sum counts (p + k).
Proof.
  intros p k H. rewrite <- (av_recv_0 (p + k)), <- (av_recv_0 p), av_recv_add by lia. cbn [Nat.add].
  rewrite av_recv_mod. reflexivity.
Qed.
Lemma av_recv_all : forall p, p < n -> av_recv n counts p n = av_sum counts n.
Proof.
  intros p Hp. replace (av_recv n counts p n) with (av_recv n counts p (n - p + p)) by (f_equal; lia).
  rewrite av_recv_add. replace (p + (n - p)) with (0 + 1 * n) by lia. rewrite Nat.mod_add, Nat.mod_small by lia.
  rewrite av_recv_0 by lia. pose proof (av_recv_up p (n - p) ltac:(lia)) as H. replace (p + (n - p)) with n in H by lia. lia.
Qed.
Lemma av_recv_mono : forall p a b, a <= b -> av_recv n counts p a <= av_recv n counts p b.
Proof. intros p a b H. replace b with (a + (b - a)) by lia. rewrite av_recv_add. lia. Qed.
Lemma av_recv_in : forall p k m e, k < m -> e < counts ((p + k) mod n) -> av_recv n counts p k + e < av_recv n counts p m.
Proof.
  intros p k m e Hk He. pose proof (av_recv_mono p (S k) m Hk) as H. cbn [av_recv] in H. lia.
Qed.
Lemma av_recv_1 : forall p, p < n -> av_recv n counts p 1 = counts p.
Proof. intros p Hp. cbn [av_recv]. rewrite Nat.add_0_r, Nat.mod_small by exact Hp. reflexivity. Qed.
Lemma av_recv_rest : forall p a, p < n -> a <= n ->
  av_total n counts - av_recv n counts p a = av_recv n counts ((p + a) mod n) (n - a).
Proof.
  intros p a Hp Ha. unfold av_total. rewrite <- (av_recv_all p Hp).
  replace (av_recv n counts p n) with (av_recv n counts p (a + (n - a))) by (f_equal; lia). rewrite av_recv_add. lia.
Qed.

Lemma av_loop_spec : forall k me g, me < n ->
  let '(l, gap, r) := av_loop n counts k me (2 ^ g) (av_recv n counts me (2 ^ g)) in
  length l = k /\ gap = 2 ^ (g + k) /\ r = av_recv n counts me (2 ^ (g + k)) /\
  forall i, i < k -> nth_error l i =
    Some {| x_sp := (me + n - 2 ^ (g + i)) mod n; x_rp := (me + 2 ^ (g + i)) mod n;
            x_so := 0; x_sn := av_recv n counts me (2 ^ (g + i)); x_ro := av_recv n counts me (2 ^ (g + i));
            x_rn := av_recv n counts ((me + 2 ^ (g + i)) mod n) (2 ^ (g + i)) |}.
Proof.
  induction k as [|k IH]; intros me g Hme; cbn [av_loop].
  - rewrite !Nat.add_0_r. repeat split. intros i Hi. lia.
  - specialize (IH me (S g) Hme).
    replace (2 ^ g * 2) with (2 ^ S g) by (cbn [Nat.pow]; lia).
    rewrite <- av_recv_add. replace (2 ^ g + 2 ^ g) with (2 ^ S g) by (cbn [Nat.pow]; lia).
    destruct (av_loop n counts k me (2 ^ S g) (av_recv n counts me (2 ^ S g))) as [[l gap] r].
    destruct IH as (H1 & H2 & H3 & H4). cbn [length]. replace (g + S k) with (S g + k) by lia.
    split; [lia|]. split; [exact H2|]. split; [exact H3|]. intros [|i] Hi; cbn [nth_error].
    + rewrite Nat.add_0_r. reflexivity.
    + rewrite H4 by lia. rewrite Nat.add_succ_r. reflexivity.
Qed.

Lemma av_dag_form : forall me, me < n ->
  length (av_dag n counts me) = log2_of n /\
  forall r, r < log2_of n -> nth_error (av_dag n counts me) r =
    Some {| x_sp := (me + n - 2 ^ r) mod n; x_rp := (me + 2 ^ r) mod n;
            x_so := 0; x_sn := av_recv n counts me (Nat.min (2 ^ r) (n - 2 ^ r));
            x_ro := av_recv n counts me (2 ^ r);
            x_rn := av_recv n counts ((me + 2 ^ r) mod n) (Nat.min (2 ^ r) (n - 2 ^ r)) |}.
Proof.
  intros me Hme. destruct (ctree_ok n) as (P1 & P2 & P3). unfold av_dag.
  pose proof (av_loop_spec (av_rounds n) me 0 Hme) as HL. cbn [Nat.pow Nat.add] in HL.
  rewrite av_recv_1 in HL by exact Hme.
  destruct (av_loop n counts (av_rounds n) me 1 (counts me)) as [[l g] rc].
  destruct HL as (L1 & L2 & L3 & L4). unfold av_rounds, av_extra in *. rewrite P1 in *.
  destruct (Nat.ltb_spec n (2 ^ log2_of n)) as [He|He].
  - destruct P3 as [P3|P3]; [rewrite P3 in He; cbn in He; lia|].
    destruct (log2_of n) as [|w] eqn:Ew; [cbn in He; lia|].
    assert (Hhalf : 2 ^ S w / 2 = 2 ^ w) by (cbn [Nat.pow]; rewrite Nat.mul_comm, Nat.div_mul by lia; reflexivity).
    rewrite Hhalf in *. replace (S w - 1) with w in * by lia.
    assert (E2 : 2 ^ S w = 2 * 2 ^ w) by reflexivity.
    rewrite (proj2 (Nat.eqb_neq (n - 2 ^ w) 0)) by lia. rewrite app_length. cbn [length]. split; [lia|].
    intros r Hr. destruct (Nat.eq_dec r w) as [->|Hne].
    + rewrite nth_error_app2 by lia. rewrite L1, Nat.sub_diag. cbn [nth_error]. rewrite L2, L3, Nat.min_r by lia.
      f_equal. f_equal.
      * rewrite av_recv_rest; [|apply Nat.mod_upper_bound; lia|lia]. rewrite mod_sub_add by lia. reflexivity.
      * rewrite av_recv_rest by lia. reflexivity.
    + rewrite nth_error_app1 by lia. rewrite L4 by lia.
      assert (2 ^ S r <= 2 ^ w) by (apply Nat.pow_le_mono_r; lia). cbn [Nat.pow] in H. rewrite Nat.min_l by lia. reflexivity.
  - rewrite Nat.eqb_refl. split; [exact L1|]. intros r Hr. rewrite L4 by exact Hr.
    assert (2 ^ S r <= 2 ^ log2_of n) by (apply Nat.pow_le_mono_r; lia). cbn [Nat.pow] in H. rewrite Nat.min_l by lia. reflexivity.
Qed.
End AvSum.

Section Av.
Context {T : Type}.
Variables (n : nat) (counts : nat -> nat) (dst : nat -> nat -> T) (src : nat -> option (nat -> T)).
Hypothesis Hn : 0 < n.
Let s := av_sched n counts dst src.

Lemma av_nr : sc_nr s = log2_of n.
Proof. apply (av_dag_form n counts Hn 0 Hn). Qed.

Lemma av_at : forall r p, r < log2_of n -> p < n ->
  sc_to s r p = Some ((p + n - 2 ^ r) mod n) /\ sc_from s r p = Some ((p + 2 ^ r) mod n) /\
  (forall b, sc_out s r p b = bread b 0 (av_recv n counts p (Nat.min (2 ^ r) (n - 2 ^ r)))) /\
  (forall b m, sc_in s r p b m = bwrite b (av_recv n counts p (2 ^ r))
     (firstn (av_recv n counts ((p + 2 ^ r) mod n) (Nat.min (2 ^ r) (n - 2 ^ r))) m)).
Proof.
  intros r p Hr Hp. unfold s, av_sched; cbn [sc_to sc_from sc_out sc_in].
  rewrite (proj2 (av_dag_form n counts Hn p Hp) r Hr). repeat split; reflexivity.
Qed.

Lemma av_matched : matched s.
Proof.
  intros r p q Hr Hp. rewrite av_nr in Hr. change (sc_np s) with n in *.
  pose proof (bruck_gap_lt n r Hr) as Hg. destruct (av_at r p Hr Hp) as (-> & -> & _).
  split; intros H; injection H as <-; (split; [apply Nat.mod_upper_bound; lia|]).
  - destruct (av_at r ((p + n - 2 ^ r) mod n) Hr ltac:(apply Nat.mod_upper_bound; lia)) as (_ & -> & _).
    rewrite mod_sub_add by lia. reflexivity.
  - destruct (av_at r ((p + 2 ^ r) mod n) Hr ltac:(apply Nat.mod_upper_bound; lia)) as (-> & _).
    rewrite mod_add_sub by lia. reflexivity.
Qed.

Lemma av_no_race : no_race s.
Proof.
  intros r p q Hr Hp Hf. rewrite av_nr in Hr. change (sc_np s) with n in *.
  destruct (av_at r p Hr Hp) as (_ & _ & Ho & Hi). rewrite Hi, !Ho.
  apply bread_bwrite_disjoint. left. rewrite Nat.add_0_l. apply av_recv_mono; lia.
Qed.

(** The contribution of rank [j]. *)
Definition av_contrib (j e : nat) : T :=
  match src j with None => dst j (av_sum counts j + e) | Some b => b e end.

Lemma av_init_block : forall p e, e < counts p -> av_init counts p (dst p) (src p) e = av_contrib p e.
Proof.
  intros p e He. unfold av_init, av_contrib. destruct (src p) as [b|].
  - rewrite (bwrite_in _ _ _ _ (b 0)) by (rewrite bread_length; lia).
    rewrite nth_bread by lia. f_equal. lia.
  - destruct (Nat.eqb_spec p 0) as [->|Hz]; [reflexivity|].
    rewrite (bwrite_in _ _ _ _ (dst 0 0)) by (rewrite bread_length; lia).
    rewrite nth_bread by lia. unfold av_offset. f_equal. lia.
Qed.

Lemma av_smem : forall r p k e, r <= log2_of n -> p < n -> k < Nat.min (2 ^ r) n -> e < counts ((p + k) mod n) ->
  smem s r p (av_recv n counts p k + e) = av_contrib ((p + k) mod n) e.
Proof.
  induction r as [|r IH]; intros p k e Hr Hp Hk He.
  - cbn [Nat.pow] in Hk. replace k with 0 in * by lia. cbn [av_recv Nat.add]. rewrite Nat.add_0_r in *.
    rewrite Nat.mod_small in * by exact Hp. apply av_init_block. exact He.
  - rewrite smem_S. change (sc_post s r p (bmem s r p)) with (bmem s r p).
    unfold bmem, amem. destruct (av_at r p ltac:(lia) Hp) as (_ & -> & _ & Hi).
    change (sc_pre s r p (smem s r p)) with (smem s r p).
    pose proof (bruck_gap_lt n r ltac:(lia)) as Hg.
    rewrite Hi. clear Hi. set (q := (p + 2 ^ r) mod n) in *.
    assert (Hq : q < n) by (apply Nat.mod_upper_bound; lia).
    change (sc_pre s r q (smem s r q)) with (smem s r q).
    destruct (av_at r q ltac:(lia) Hq) as (_ & _ & -> & _).
    set (len := av_recv n counts q (Nat.min (2 ^ r) (n - 2 ^ r))).
    rewrite (firstn_all2 (n:=len)) by (rewrite bread_length; lia).
    cbn [Nat.pow] in Hk.
    destruct (lt_dec k (2 ^ r)) as [Hlow|Hhi].
    + rewrite bwrite_out.
      * apply IH; try assumption; lia.
      * left. apply av_recv_in; assumption || lia.
    + assert (Hs : av_recv n counts p k = av_recv n counts p (2 ^ r) + av_recv n counts q (k - 2 ^ r)).
      { replace (av_recv n counts p k) with (av_recv n counts p (2 ^ r + (k - 2 ^ r))) by (f_equal; lia).
        apply av_recv_add. exact Hn. }
      assert (Hm : (q + (k - 2 ^ r)) mod n = (p + k) mod n).
      { unfold q. rewrite Nat.add_mod_idemp_l by lia. f_equal. lia. }
      assert (Hin : av_recv n counts q (k - 2 ^ r) + e < len).
      { apply av_recv_in; [exact Hn|lia|]. rewrite Hm. exact He. }
      rewrite (bwrite_in _ _ _ _ (dst 0 0)) by (rewrite bread_length; lia).
      replace (av_recv n counts p k + e - av_recv n counts p (2 ^ r)) with (av_recv n counts q (k - 2 ^ r) + e) by lia.
      rewrite nth_bread by exact Hin. rewrite Nat.add_0_l, IH; [rewrite Hm; reflexivity|lia|exact Hq|lia|].
      rewrite Hm. exact He.
Qed.

Lemma av_sum_mono : forall a b, a <= b -> av_sum counts a <= av_sum counts b.
Proof. intros a b H. induction H as [|b H IH]; [lia|]. cbn [av_sum]. lia. Qed.

Lemma av_final : forall p j e b, p < n -> j < n -> e < counts j ->
  (forall k x, k < n -> x < counts ((p + k) mod n) -> b (av_recv n counts p k + x) = av_contrib ((p + k) mod n) x) ->
  av_finalize n counts p b (av_sum counts j + e) = av_contrib j e.
Proof.
  intros p j e b Hp Hj He Hb. unfold av_finalize, av_offset, av_total.
  assert (Hpn : av_sum counts p <= av_sum counts n) by (apply av_sum_mono; lia).
  destruct (Nat.eqb_spec p 0) as [->|Hz].
  - specialize (Hb j e Hj). cbn [Nat.add] in Hb. rewrite Nat.mod_small in Hb by exact Hj.
    rewrite av_recv_0 in Hb by lia. apply Hb. exact He.
  - destruct (lt_dec j p) as [Hlt|Hge].
    + pose proof (av_sum_mono (S j) p Hlt) as Hin. cbn [av_sum] in Hin.
      rewrite (bwrite_in _ _ _ _ (b 0)) by (rewrite bread_length; lia).
      rewrite nth_bread by lia.
      specialize (Hb (n - p + j) e ltac:(lia)). replace (p + (n - p + j)) with (j + 1 * n) in Hb by lia.
      rewrite Nat.mod_add, Nat.mod_small in Hb by lia. rewrite <- (Hb He). f_equal.
      rewrite av_recv_add by exact Hn. replace (p + (n - p)) with (0 + 1 * n) by lia.
      rewrite Nat.mod_add, Nat.mod_small by lia. rewrite av_recv_0 by lia.
      pose proof (av_recv_up n counts Hn p (n - p) ltac:(lia)) as H. replace (p + (n - p)) with n in H by lia. lia.
    + pose proof (av_sum_mono p j ltac:(lia)) as Hlo. pose proof (av_sum_mono (S j) n Hj) as Hhi. cbn [av_sum] in Hhi.
      rewrite bwrite_out by (rewrite bread_length; lia).
      rewrite (bwrite_in _ _ _ _ (b 0)) by (rewrite bread_length; lia).
      rewrite nth_bread by lia.
      specialize (Hb (j - p) e ltac:(lia)). replace (p + (j - p)) with j in Hb by lia.
      rewrite Nat.mod_small in Hb by exact Hj. rewrite <- (Hb He). f_equal.
      pose proof (av_recv_up n counts Hn p (j - p) ltac:(lia)) as H. replace (p + (j - p)) with j in H by lia. lia.
Qed.

(** Nothing behind the last block is ever written. *)
Lemma av_outside : forall r p i, r <= log2_of n -> p < n -> av_sum counts n <= i -> smem s r p i = dst p i.
Proof.
  induction r as [|r IH]; intros p i Hr Hp Hi.
  - change (smem s 0 p) with (av_init counts p (dst p) (src p)). unfold av_init.
    pose proof (av_sum_mono (S p) n Hp) as H. cbn [av_sum] in H.
    destruct (src p) as [b|]; [rewrite bwrite_out by (rewrite bread_length; lia); reflexivity|].
    destruct (p =? 0); [reflexivity|]. rewrite bwrite_out by (rewrite bread_length; lia). reflexivity.
  - rewrite smem_S. change (sc_post s r p (bmem s r p)) with (bmem s r p).
    unfold bmem, amem. destruct (av_at r p ltac:(lia) Hp) as (_ & -> & _ & Hin). rewrite Hin.
    change (sc_pre s r p (smem s r p)) with (smem s r p). pose proof (bruck_gap_lt n r ltac:(lia)) as Hg.
    rewrite bwrite_out; [apply IH; lia|]. right. rewrite firstn_length.
    pose proof (av_recv_rest n counts Hn p (2 ^ r) Hp ltac:(lia)) as H1.
    pose proof (av_recv_mono n counts Hn ((p + 2 ^ r) mod n) (Nat.min (2 ^ r) (n - 2 ^ r)) (n - 2 ^ r) ltac:(lia)) as H2.
    unfold av_total in H1. pose proof (av_recv_mono n counts Hn p (2 ^ r) n ltac:(lia)) as H3.
    rewrite (av_recv_all n counts Hn p Hp) in H3. lia.
Qed.
End Av.
