(** The reduce: its rounds agree with those of the allreduce as long as a role is
    active, and the last messages carry the two halves. *)
From Coq Require Import List Arith Lia Bool.
From Verif Require Import RdModel RdProof AgProof ArModel ArProof ShModel ShProof ArRun ReModel.
Import ListNotations.

Section Run.
Context {T : Type}.
Variable op : T -> T -> T.
Variables n ne root : nat.
Variable src : nat -> nat -> T.
Hypothesis Hn : 0 < n.
Let L := log2_of n.
Let rr := virtual_to_real n (2 ^ L).
Let s := re_sched op n ne root src.
Let a := ar_sched op n ne src.

Lemma re_pow : pow2_of n = 2 ^ L.
Proof. apply (ctree_ok n). Qed.
Lemma re_nr_le : sc_nr s <= 2 * L.
Proof. cbn [s re_sched sc_nr]. fold L. unfold re_halving. fold L. destruct (root =? 0); lia. Qed.
Lemma re_nr_ge : L <= sc_nr s.
Proof. cbn [s re_sched sc_nr]. fold L. lia. Qed.

Lemma re_active_eq : forall r v, r < 2 * L -> re_active n r v = (r <? L) || (v <? 2 ^ (2 * L - r)).
Proof.
  intros r v Hr. unfold re_active. fold L. destruct (Nat.ltb_spec r L) as [H|H]; [reflexivity|]. cbn [orb]. f_equal.
  rewrite re_pow. rewrite <- Nat.pow_sub_r by lia. f_equal. lia.
Qed.
Lemma re_partner_eq : forall r v, re_partner n ne r v = if re_active n r v then ar_partner n ne r v else None.
Proof. reflexivity. Qed.

Lemma re_active_flip : forall r v, r < 2 * L -> v < 2 ^ L -> re_active n r v = true -> re_active n r (flip v (bit n r)) = true.
Proof.
  intros r v Hr Hv. rewrite !re_active_eq by exact Hr. unfold bit. fold L. destruct (Nat.ltb_spec r L) as [H|H]; [reflexivity|].
  cbn [orb]. rewrite !Nat.ltb_lt. intros Ha. apply flip_lt; [lia|exact Ha].
Qed.
Lemma re_active_pred : forall r v, S r < 2 * L -> v < 2 ^ L -> re_active n (S r) v = true -> re_active n r v = true.
Proof.
  intros r v Hr Hv. rewrite !re_active_eq by lia. destruct (Nat.ltb_spec r L); [reflexivity|].
  destruct (Nat.ltb_spec (S r) L); [lia|]. cbn [orb]. rewrite !Nat.ltb_lt. intros H1.
  pose proof (Nat.pow_le_mono_r 2 (2 * L - S r) (2 * L - r) ltac:(lia) ltac:(lia)). lia.
Qed.

Lemma re_matched : matched s.
Proof.
  pose proof (ar_matched op n ne src Hn) as Hm. pose proof re_nr_le as Hle.
  assert (H : forall r v q, r < 2 * L -> v < 2 ^ L -> re_partner n ne r v = Some q ->
    q < 2 ^ L /\ re_partner n ne r q = Some v).
  { intros r v q Hr Hv H. rewrite re_partner_eq in H. destruct (re_active n r v) eqn:Ea; [|discriminate].
    destruct (Hm r v q) as (H1 & _).
    - exact Hr.
    - rewrite ar_np. exact Hv.
    - destruct (H1 H) as (Hq & H2). rewrite ar_np in Hq. split; [exact Hq|]. rewrite re_partner_eq.
      pose proof (ar_partner_eq n ne Hn r v Hr Hv) as Hp. fold L in Hp. rewrite H in Hp.
      destruct (_ =? _) in Hp; [discriminate|]. injection Hp as ->. rewrite re_active_flip by assumption. exact H2. }
  intros r p q Hr Hp. change (sc_np s) with (pow2_of n) in *. rewrite re_pow in *.
  cbn [s re_sched sc_to sc_from]. split; apply H; first [lia|assumption].
Qed.

Lemma re_no_race : no_race s.
Proof.
  intros r p q Hr Hp Hq. pose proof re_nr_le as Hle.
  change (sc_out s) with (sc_out a). change (sc_in s) with (sc_in a). unfold a.
  rewrite !(ar_out op n ne src Hn r p) by (fold L; lia).
  apply bread_ext. intros i Hi. apply (ar_in_out op n ne src Hn); [fold L; lia|].
  pose proof (racts_disj n ne Hn r p). lia.
Qed.

Lemma re_partner_some : forall r v, re_partner n ne r v <> None -> ar_partner n ne r v <> None.
Proof. intros r v H E. apply H. rewrite re_partner_eq, E. destruct (re_active n r v); reflexivity. Qed.

Lemma re_local : local s rr (foot n ne) src.
Proof.
  destruct (ar_local op n ne src Hn) as [L1 L2 L3 L4 L5 L6 L7]. constructor.
  - intros r v b b' Hv Ht Hb. apply L1; [exact Hv|apply re_partner_some; exact Ht|exact Hb].
  - intros r v b b' m Hv Ht Hb. apply L2; [exact Hv|apply re_partner_some; exact Ht|exact Hb].
  - intros r v b m i Hv Ht Hi. apply L3; [exact Hv|apply re_partner_some; exact Ht|exact Hi].
  - exact L4.
  - reflexivity.
  - reflexivity.
  - exact L7.
Qed.

Lemma re_smem_S : forall r v, smem s (S r) v =
  match re_partner n ne r v with Some q => sc_in a r v (smem s r v) (sc_out a r q (smem s r q)) | None => smem s r v end.
Proof. intros r v. rewrite smem_S. reflexivity. Qed.
Lemma ar_smem_S : forall r v, smem a (S r) v =
  match ar_partner n ne r v with Some q => sc_in a r v (smem a r v) (sc_out a r q (smem a r q)) | None => smem a r v end.
Proof. intros r v. rewrite smem_S. reflexivity. Qed.

(** A role that was active in all rounds so far has the memory it would have in
    an allreduce. *)
Lemma re_smem_eq : forall r v, r <= 2 * L -> v < 2 ^ L -> (forall r', S r' = r -> re_active n r' v = true) ->
  smem s r v = smem a r v.
Proof.
  induction r as [|r IH]; intros v Hr Hv Ha; [reflexivity|].
  specialize (Ha r eq_refl). rewrite re_smem_S, ar_smem_S, re_partner_eq, Ha.
  assert (Hprev : forall w, w < 2 ^ L -> re_active n r w = true -> smem s r w = smem a r w).
  { intros w Hw Haw. apply IH; [lia|exact Hw|]. intros r' <-. apply re_active_pred; [lia|exact Hw|exact Haw]. }
  rewrite (ar_partner_eq n ne Hn r v) by (fold L; first [lia|exact Hv]). fold L.
  rewrite (Hprev v Hv Ha). destruct (_ =? _); [reflexivity|].
  rewrite (Hprev (flip v (bit n r))); [reflexivity| |].
  - apply flip_lt; [apply (bit_lt n Hn); fold L; lia|exact Hv].
  - apply re_active_flip; [lia|exact Hv|exact Ha].
Qed.

(** * The values at the join *)
Hypothesis Hassoc : forall x y z, op x (op y z) = op (op x y) z.
Hypothesis Hcomm : forall x y, op x y = op y x.

Lemma re_L_pos : 2 <= n -> 1 <= L.
Proof. intros H. destruct (ctree_ok n) as (_ & P2 & _). fold L in P2. destruct L; [cbn in P2; lia|lia]. Qed.

(** What rank [p] holds when it has joined: a role with [o] in its part tells. *)
Lemma re_at_join : forall k h p v o, hexec s rr src k h -> p < n -> re_joined n root h p ->
  v < 2 ^ L -> rr v = p -> foot n ne v o -> h_mem h p o = smem s (sc_nr s) v o.
Proof.
  intros k h p v o Hx Hp Hj Hv Hr Hf. rewrite <- Hr.
  apply (shared_result s rr (foot n ne) src re_local re_matched re_no_race k h v o Hx); [|exact Hf|].
  - cbn [s re_sched sc_np]. rewrite re_pow. exact Hv.
  - apply Hj. apply roles_of_real; [apply folds_pow2; exact Hn|rewrite re_pow; exact Hv|exact Hp|rewrite re_pow; exact Hr].
Qed.

Lemma re_outside : forall k h p o, hexec s rr src k h -> ne <= o -> h_mem h p o = src p o.
Proof.
  intros k h p o Hx Ho. apply (hexec_frame s rr (foot n ne) src re_local k h Hx). intros v _ _ Hf.
  apply (foot_ne n ne Hn) in Hf. lia.
Qed.

(** Root 0. *)
Lemma re_root0 : forall k h o, root = 0 -> 2 <= n -> hexec s rr src k h -> re_joined n root h 0 -> o < ne ->
  h_mem h 0 o = total op n src o.
Proof.
  intros k h o Hr H2 Hx Hj Ho. pose proof (re_L_pos H2) as HL.
  destruct (foot_cover n ne Hn 0 o Hn Ho) as (v & Hv & Hrv & Hf). fold L in Hv, Hrv. fold rr in Hrv.
  rewrite (re_at_join k h 0 v o Hx Hn Hj Hv Hrv Hf).
  assert (Enr : sc_nr s = 2 * L) by (cbn [s re_sched sc_nr]; unfold re_halving; rewrite Hr; fold L; cbn [Nat.eqb]; lia).
  rewrite Enr. rewrite re_smem_eq; [|lia|exact Hv|].
  - apply (ar_final op Hassoc Hcomm n ne src Hn); [fold L; lia|exact Hv|exact Hf].
  - intros r' E. rewrite re_active_eq by lia. apply orb_true_iff. right. apply Nat.ltb_lt.
    replace (2 * L - r') with 1 by lia. cbn [Nat.pow Nat.mul Nat.add].
    destruct v as [|v]; [lia|]. destruct (v2r_same n (2 ^ L) (ar_folds n Hn) 0 (S v)) as (E2 & _); [lia|fold rr; rewrite Hrv; exact (v2r_0 n (2 ^ L))|lia].
Qed.

(** A root other than 0: one round less. *)
Hypothesis Hroot : root <> 0.
Hypothesis H2 : 2 <= n.

Lemma re_nr : sc_nr s = 2 * L - 1.
Proof.
  cbn [s re_sched sc_nr]. unfold re_halving. fold L. destruct (Nat.eqb_spec root 0); [contradiction|]. pose proof (re_L_pos H2). lia.
Qed.

Lemma re_half : forall v o, v < 2 ^ L -> v < 4 -> inreg ne v 1 o -> smem s (sc_nr s) v o = total op n src o.
Proof.
  intros v o Hv H4 Ho. pose proof (re_L_pos H2) as HL. rewrite re_nr. rewrite re_smem_eq; [|lia|exact Hv|].
  - replace (2 * L - 1) with (L + (L - 1)) by lia. apply (ar_gathered op Hassoc Hcomm n ne src Hn); [fold L; lia|exact Hv|].
    fold L. replace (L - (L - 1)) with 1 by lia. exact Ho.
  - intros r' E. rewrite re_active_eq by lia. destruct (Nat.ltb_spec r' L); [reflexivity|]. cbn [orb]. apply Nat.ltb_lt.
    replace (2 * L - r') with 2 by lia. cbn. exact H4.
Qed.

Lemma foot_half : forall v o, inreg ne v 1 o -> foot n ne v o.
Proof.
  intros v o Ho. unfold foot. destruct (_ =? _); [exact Ho|]. exact (proj1 (inreg_0 n ne Hn v o) (inreg_down n ne v 0 o Ho)).
Qed.

Lemma inreg_low : forall v o, v mod 2 = 0 -> (inreg ne v 1 o <-> o < re_split ne).
Proof.
  intros v o Hv. rewrite inreg_S. unfold act_at. cbn [reg Nat.pow]. unfold is_low. rewrite Nat.div_1_r, Hv. cbn [Nat.eqb w_ro w_rn].
  unfold re_split. destruct (half_split ne) as (E1 & E2 & E3). lia.
Qed.
Lemma inreg_high : forall v o, v mod 2 = 1 -> (inreg ne v 1 o <-> re_split ne <= o < ne).
Proof.
  intros v o Hv. rewrite inreg_S. unfold act_at. cbn [reg Nat.pow]. unfold is_low. rewrite Nat.div_1_r, Hv. cbn [Nat.eqb w_ro w_rn].
  unfold re_split. destruct (half_split ne) as (E1 & E2 & E3). lia.
Qed.

(** The first half at rank 0. *)
Lemma re_first_half : forall k h o, hexec s rr src k h -> re_joined n root h 0 -> o < re_split ne ->
  h_mem h 0 o = total op n src o.
Proof.
  intros k h o Hx Hj Ho. pose proof (pow2_pos L) as HP. apply (inreg_low 0) in Ho; [|reflexivity].
  rewrite (re_at_join k h 0 0 o Hx Hn Hj HP (v2r_0 n (2 ^ L)) (foot_half 0 o Ho)). apply re_half; [exact HP|lia|exact Ho].
Qed.

(** The second half at rank 1, unless there is exactly one rank with two roles. *)
Lemma re_second_half : forall k h o, hexec s rr src k h -> re_joined n root h 1 -> n + 1 <> 2 ^ L -> re_split ne <= o < ne ->
  h_mem h 1 o = total op n src o.
Proof.
  intros k h o Hx Hj Hone Ho. destruct (ar_folds n Hn) as (F1 & F2 & F3). fold L in F1, F2, F3.
  destruct (Nat.eq_dec n (2 ^ L)) as [E|E].
  - assert (Hr : rr 1 = 1) by (unfold rr, virtual_to_real; rewrite <- E, Nat.sub_diag; reflexivity).
    apply (inreg_high 1) in Ho; [|reflexivity].
    rewrite (re_at_join k h 1 1 o Hx ltac:(lia) Hj ltac:(lia) Hr (foot_half 1 o Ho)). apply re_half; [lia|lia|exact Ho].
  - assert (Hr : rr 3 = 1).
    { unfold rr, virtual_to_real. destruct (Nat.leb_spec (2 * (2 ^ L - n)) 3); [lia|reflexivity]. }
    assert (H3 : 3 < 2 ^ L) by lia.
    apply (inreg_high 3) in Ho; [|reflexivity].
    rewrite (re_at_join k h 1 3 o Hx ltac:(lia) Hj H3 Hr (foot_half 3 o Ho)). apply re_half; [exact H3|lia|exact Ho].
Qed.

(** The part a role gives away in the first round is not written before the
    last round. *)
Lemma re_given_away : forall r v o, v < 2 ^ L -> r <= 2 * L - 1 -> ~ inreg ne v 1 o -> smem s r v o = src (rr v) o.
Proof.
  intros r v o Hv. induction r as [|r IH]; intros Hr Ho.
  - cbn [smem s re_sched sc_init]. rewrite re_pow. reflexivity.
  - rewrite re_smem_S. destruct (re_partner n ne r v) as [q|]; [|apply IH; [lia|exact Ho]].
    unfold a. rewrite (ar_in_out op n ne src Hn); [apply IH; [lia|exact Ho]|fold L; lia|].
    destruct (Nat.lt_ge_cases o (w_ro (racts n ne r v))) as [H|H]; [left; exact H|right].
    destruct (Nat.lt_ge_cases o (w_ro (racts n ne r v) + w_rn (racts n ne r v))) as [H'|H']; [exfalso|exact H'].
    apply Ho.
    assert (Hdown : forall b j, 1 <= b -> inreg ne v b j -> inreg ne v 1 j).
    { induction b as [|b IHb]; intros j Hb Hj; [lia|]. destruct (Nat.eq_dec b 0) as [->|Hb0]; [exact Hj|].
      apply IHb; [lia|]. apply (inreg_down n ne). exact Hj. }
    unfold racts in H, H'. fold L in H, H'. destruct (Nat.ltb_spec r L) as [HrL|HrL].
    + apply (Hdown (S r)); [lia|]. apply inreg_S. lia.
    + assert (Hb : 1 <= bit n r) by (unfold bit; fold L; destruct (Nat.ltb_spec r L); lia).
      cbn [mirror w_ro w_rn] in H, H'. apply (Hdown (bit n r)); [exact Hb|]. apply (inreg_split n ne). right. apply inreg_sent. lia.
Qed.

(** With one rank short of a power of two, rank 1 keeps its own contribution in
    the second half. *)
Lemma re_second_half_stale : forall k h o, hexec s rr src k h -> re_joined n root h 1 -> n + 1 = 2 ^ L -> re_split ne <= o < ne ->
  h_mem h 1 o = src 1 o.
Proof.
  intros k h o Hx Hj Hone Ho.
  assert (Hr : rr 2 = 1) by (unfold rr, virtual_to_real; replace (2 ^ L - n) with 1 by lia; reflexivity).
  assert (Hlt : 2 < 2 ^ L) by lia.
  assert (Hf : foot n ne 2 o).
  { unfold foot. fold L. fold rr. change (flip 2 0) with 3.
    assert (E3 : rr 3 = 2) by (unfold rr, virtual_to_real; replace (2 ^ L - n) with 1 by lia; reflexivity).
    rewrite Hr, E3. cbn [Nat.eqb]. lia. }
  rewrite (re_at_join k h 1 2 o Hx ltac:(lia) Hj Hlt Hr Hf). rewrite re_nr, re_given_away; [rewrite Hr; reflexivity|exact Hlt|lia|].
  intros Hi. apply (inreg_low 2) in Hi; [lia|reflexivity].
Qed.
End Run.

(** * The whole reduce *)
Section Last.
Context {T : Type}.
Variable op : T -> T -> T.
Variables n ne root : nat.
Variable src : nat -> nat -> T.
Hypothesis H2 : 2 <= n.
Hypothesis Hrn : root < n.
Let s := re_sched op n ne root src.
Let rr := virtual_to_real n (pow2_of n).

(** What a joined rank holds; [G c] is what message [c] carries. *)
Variable G : nat -> nat -> T.
Hypothesis HG : forall k h c i, hexec s rr src k h -> re_last root c = true \/ (root <> 0 /\ c = root /\ c = 1) ->
  re_joined n root h c -> re_off ne c <= i < re_off ne c + re_len ne c -> h_mem h c i = G c i.

Definition chan_ok (c : nat) (f : fstat T) (h h0 : shcfg T (list T)) : Prop :=
  match f with
  | FWait => True
  | FFly m => re_joined n root h c /\ m = bread (G c) (re_off ne c) (re_len ne c)
  | FDone => re_joined n root h c /\ re_joined n root h root
  end.

Definition xinv (x : xcfg T) : Prop := exists k h0, hexec s rr src k h0 /\
  h_ctl (x_h x) = h_ctl h0 /\ h_net (x_h x) = h_net h0 /\
  (forall p, p <> root -> h_mem (x_h x) p = h_mem h0 p) /\
  (forall c, re_last root c = true -> chan_ok c (x_ch x c) (x_h x) h0) /\
  (forall c, re_last root c = false -> x_ch x c = FWait) /\
  (forall c i, x_ch x c = FDone -> re_off ne c <= i < re_off ne c + re_len ne c -> h_mem (x_h x) root i = G c i) /\
  (forall i, (forall c, x_ch x c = FDone -> ~ (re_off ne c <= i < re_off ne c + re_len ne c)) ->
     h_mem (x_h x) root i = h_mem h0 root i) /\
  ((exists c, x_ch x c = FDone) \/ h_mem (x_h x) root = h_mem h0 root).

Lemma re_last_le1 : forall c, re_last root c = true -> (c = 0 \/ c = 1) /\ root <> 0 /\ c <> root.
Proof.
  intros c H. unfold re_last in H. apply andb_true_iff in H. destruct H as (H & Hc). apply negb_true_iff, Nat.eqb_neq in H.
  apply orb_true_iff in Hc. destruct Hc as [Hc|Hc]; [apply Nat.eqb_eq in Hc; lia|].
  apply andb_true_iff in Hc. destruct Hc as (Hc & Hr). apply Nat.eqb_eq in Hc. apply negb_true_iff, Nat.eqb_neq in Hr. lia.
Qed.
Lemma re_parts_disj : forall c c' i, c <= 1 -> c' <= 1 -> re_off ne c <= i < re_off ne c + re_len ne c ->
  re_off ne c' <= i < re_off ne c' + re_len ne c' -> c = c'.
Proof. intros [|[|c]] [|[|c']] i H1 H3 Ha Hb; try lia; unfold re_off, re_len in *; cbn [Nat.eqb] in *; lia. Qed.

(** A role of a joined rank takes no step. *)
Lemma joined_still : forall h h' p, (forall v, v < sc_np s -> l_open (h_ctl h v) = true -> l_rnd (h_ctl h v) < sc_nr s) ->
  hstep s rr h h' -> re_joined n root h p -> p < n -> h_mem h' p = h_mem h p /\ re_joined n root h' p.
Proof.
  intros h h' p Hopen Hs Hj Hp. pose proof (folds_pow2 n ltac:(lia)) as Hf.
  assert (Hno : forall v, v < sc_np s -> l_rnd (h_ctl h v) < sc_nr s -> rr v <> p /\ ~ In v (real_to_virtual n (pow2_of n) p)).
  { intros v Hv Hr. assert (Hin : ~ In v (real_to_virtual n (pow2_of n) p)).
    { intros Hin. specialize (Hj v Hin). change (log2_of n + re_halving n root) with (sc_nr s) in Hj. lia. }
    split; [|exact Hin]. intros E. apply Hin. apply roles_of_real; assumption. }
  assert (Hset : forall v l, v < sc_np s -> l_rnd (h_ctl h v) < sc_nr s -> forall w, In w (real_to_virtual n (pow2_of n) p) ->
    rset (h_ctl h) v l w = h_ctl h w).
  { intros v l Hv Hr w Hw. rewrite rset_eq. destruct (Nat.eqb_spec w v) as [->|]; [|reflexivity]. exfalso. exact (proj2 (Hno v Hv Hr) Hw). }
  assert (Hmem : forall v b, v < sc_np s -> l_rnd (h_ctl h v) < sc_nr s -> hset (h_mem h) (rr v) b p = h_mem h p).
  { intros v b Hv Hr. unfold hset. destruct (Nat.eqb_spec p (rr v)) as [E|]; [|reflexivity]. exfalso. exact (proj1 (Hno v Hv Hr) (eq_sym E)). }
  destruct Hs as [h v l Hv Hc Hr Ho | h v l q Hv Hc Ho Hs Ht | h v l q m n1 n2 Hv Hc Ho Hr Hf' Hn
                 | h v l Hv Hc Ho H1 H3]; cbn [h_mem h_ctl]; subst l.
  - split; [apply Hmem; assumption|]. intros w Hw. cbn [h_ctl]. rewrite Hset by assumption. apply Hj. exact Hw.
  - specialize (Hopen v Hv Ho). split; [reflexivity|]. intros w Hw. cbn [h_ctl]. rewrite Hset by assumption. apply Hj. exact Hw.
  - specialize (Hopen v Hv Ho). split; [apply Hmem; assumption|]. intros w Hw. cbn [h_ctl]. rewrite Hset by assumption. apply Hj. exact Hw.
  - specialize (Hopen v Hv Ho). split; [apply Hmem; assumption|]. intros w Hw. cbn [h_ctl]. rewrite Hset by assumption. apply Hj. exact Hw.
Qed.

Lemma hexec_open : forall k h, hexec s rr src k h -> forall v, v < sc_np s -> l_open (h_ctl h v) = true -> l_rnd (h_ctl h v) < sc_nr s.
Proof.
  induction 1 as [|k h h' H IH Hs]; intros w Hw Ho; [discriminate|].
  destruct Hs as [h v l Hv Hc Hr Ho' | h v l q Hv Hc Ho' Hs Ht | h v l q m n1 n2 Hv Hc Ho' Hr Hf' Hn
                 | h v l Hv Hc Ho' H1 H3]; cbn [h_ctl] in Ho |- *; rewrite rset_eq in Ho |- *; destruct (Nat.eqb_spec w v) as [->|];
    cbn [l_open l_rnd] in Ho |- *; try (apply IH; assumption); try discriminate; subst l.
  - exact Hr.
  - apply IH; assumption.
  - apply IH; assumption.
Qed.

Lemma joined_ctl : forall (h h' : shcfg T (list T)) p, h_ctl h = h_ctl h' -> re_joined n root h p -> re_joined n root h' p.
Proof. intros h h' p E Hj v Hv. rewrite <- E. apply Hj. exact Hv. Qed.

(** The same step in a configuration with other contents at one rank. *)
Lemma hstep_transfer : forall h h0 h', (forall v, v < sc_np s -> l_open (h_ctl h0 v) = true -> l_rnd (h_ctl h0 v) < sc_nr s) ->
  h_ctl h = h_ctl h0 -> h_net h = h_net h0 -> (forall p, p <> root -> h_mem h p = h_mem h0 p) ->
  (h_mem h root = h_mem h0 root \/ re_joined n root h root) -> hstep s rr h h' ->
  exists h0', hstep s rr h0 h0' /\ h_ctl h' = h_ctl h0' /\ h_net h' = h_net h0' /\
    (forall p, p <> root -> h_mem h' p = h_mem h0' p) /\
    (re_joined n root h root -> h_mem h' root = h_mem h root /\ h_mem h0' root = h_mem h0 root) /\
    (h_mem h root = h_mem h0 root -> h_mem h' root = h_mem h0' root).
Proof.
  intros h h0 h' Hopen Ec En Em Hor Hs. pose proof (folds_pow2 n ltac:(lia)) as Hf.
  assert (Hno : re_joined n root h root -> forall v, v < sc_np s -> l_rnd (h_ctl h0 v) < sc_nr s -> rr v <> root).
  { intros Hj v Hv Hr E. rewrite <- Ec in Hr. specialize (Hj v). change (log2_of n + re_halving n root) with (sc_nr s) in Hj.
    rewrite Hj in Hr; [lia|]. apply roles_of_real; assumption. }
  assert (Hown : forall v, v < sc_np s -> l_rnd (h_ctl h0 v) < sc_nr s -> h_mem h (rr v) = h_mem h0 (rr v)).
  { intros v Hv Hr. destruct (Nat.eq_dec (rr v) root) as [E|E]; [|apply Em; exact E]. destruct Hor as [Hor|Hj]; [rewrite E; exact Hor|].
    exfalso. exact (Hno Hj v Hv Hr E). }
  assert (Hset : forall v f, v < sc_np s -> l_rnd (h_ctl h0 v) < sc_nr s ->
    let b := f (h_mem h (rr v)) in let b0 := f (h_mem h0 (rr v)) in
    (forall p, p <> root -> hset (h_mem h) (rr v) b p = hset (h_mem h0) (rr v) b0 p) /\
    (re_joined n root h root -> hset (h_mem h) (rr v) b root = h_mem h root /\ hset (h_mem h0) (rr v) b0 root = h_mem h0 root) /\
    (h_mem h root = h_mem h0 root -> hset (h_mem h) (rr v) b root = hset (h_mem h0) (rr v) b0 root)).
  { intros v f Hv Hr b b0. assert (Eb : b = b0) by (unfold b, b0; rewrite Hown by assumption; reflexivity). rewrite Eb. unfold hset.
    split; [|split].
    - intros p Hp. destruct (p =? rr v); [reflexivity|apply Em; exact Hp].
    - intros Hj. specialize (Hno Hj v Hv Hr). destruct (Nat.eqb_spec root (rr v)) as [E|]; [congruence|auto].
    - intros E. destruct (root =? rr v); [reflexivity|exact E]. }
  destruct Hs as [h v l Hv Hc Hr Ho | h v l q Hv Hc Ho Hs Ht | h v l q m n1 n2 Hv Hc Ho Hr Hf' Hn
                 | h v l Hv Hc Ho H1 H3]; rewrite Ec in Hc.
  - eexists. split; [apply (h_enter s rr h0 v l); assumption|]. cbn [h_ctl h_net h_mem]. rewrite Ec, En. split; [reflexivity|].
    split; [reflexivity|]. apply (Hset v (sc_pre s (l_rnd l) v)); [exact Hv|rewrite Hc; exact Hr].
  - assert (Hr : l_rnd (h_ctl h0 v) < sc_nr s) by (apply Hopen; [exact Hv|rewrite Hc; exact Ho]).
    eexists. split; [apply (h_send s rr h0 v l q); assumption|]. cbn [h_ctl h_net h_mem]. rewrite Ec, En, (Hown v Hv Hr). split; [reflexivity|].
    split; [reflexivity|]. split; [exact Em|]. split; [auto|auto].
  - assert (Hr0 : l_rnd (h_ctl h0 v) < sc_nr s) by (apply Hopen; [exact Hv|rewrite Hc; exact Ho]).
    eexists. split; [apply (h_recv s rr h0 v l q m n1 n2); try assumption; rewrite <- En; exact Hn|]. cbn [h_ctl h_net h_mem]. rewrite Ec. split; [reflexivity|].
    split; [reflexivity|]. apply (Hset v (fun b => sc_in s (l_rnd l) v b m)); assumption.
  - assert (Hr0 : l_rnd (h_ctl h0 v) < sc_nr s) by (apply Hopen; [exact Hv|rewrite Hc; exact Ho]).
    eexists. split; [apply (h_leave s rr h0 v l); assumption|]. cbn [h_ctl h_net h_mem]. rewrite Ec, En. split; [reflexivity|].
    split; [reflexivity|]. apply (Hset v (sc_post s (l_rnd l) v)); assumption.
Qed.

Lemma xinv_exec : forall k x, xexec op n ne root src k x -> xinv x.
Proof.
  induction 1 as [|k x x' Hx IH Hs].
  - exists 0, (hinit src). cbn [x_h x_ch]. split; [constructor|]. split; [reflexivity|]. split; [reflexivity|]. split; [reflexivity|].
    split; [intros c _; exact Logic.I|]. split; [reflexivity|]. split; [discriminate|]. split; [reflexivity|]. right. reflexivity.
  - destruct IH as (k0 & h0 & I1 & I2 & I3 & I4 & I5 & I6 & I7 & I8 & I9).
    assert (Hopen := hexec_open k0 h0 I1).
    assert (Hrj : forall c, x_ch x c = FDone -> re_joined n root (x_h x) root).
    { intros c Ec. destruct (re_last root c) eqn:El; [|rewrite (I6 c El) in Ec; discriminate].
      specialize (I5 c El). rewrite Ec in I5. apply I5. }
    destruct Hs as [x h' Hs | x c Hl Hj Hw | x c m Hl Hj Hw].
    + assert (Hor : h_mem (x_h x) root = h_mem h0 root \/ re_joined n root (x_h x) root).
      { destruct I9 as [(c & Ec)|E]; [right; exact (Hrj c Ec)|left; exact E]. }
      destruct (hstep_transfer (x_h x) h0 h' Hopen I2 I3 I4 Hor Hs) as (h0' & T1 & T2 & T3 & T4 & T5 & T6).
      assert (Hopenx : forall v, v < sc_np s -> l_open (h_ctl (x_h x) v) = true -> l_rnd (h_ctl (x_h x) v) < sc_nr s) by (rewrite I2; exact Hopen).
      assert (Hstill : forall p, p < n -> re_joined n root (x_h x) p -> re_joined n root h' p).
      { intros p Hp Hj. apply (joined_still (x_h x) h' p Hopenx Hs Hj Hp). }
      exists (S k0), h0'. cbn [x_h x_ch]. split; [eapply hxS; [exact I1|exact T1]|]. split; [exact T2|]. split; [exact T3|]. split; [exact T4|].
      split.
      { intros c Hl. specialize (I5 c Hl). destruct (re_last_le1 c Hl) as (Hc & _). destruct (x_ch x c) as [|m|]; cbn [chan_ok] in *.
        - exact Logic.I.
        - split; [apply Hstill; [lia|apply I5]|apply I5].
        - split; (apply Hstill; [lia|apply I5]). }
      split; [exact I6|]. split.
      { intros c i Ec Hi. rewrite (proj1 (T5 (Hrj c Ec))). apply (I7 c i Ec Hi). }
      destruct I9 as [(c & Ec)|E].
      * destruct (T5 (Hrj c Ec)) as (E1 & E2). split; [|left; exists c; exact Ec]. intros i Hi. rewrite E1, E2. apply I8. exact Hi.
      * specialize (T6 E). split; [intros i _; rewrite T6; reflexivity|right; exact T6].
    + destruct (re_last_le1 c Hl) as (Hc & Hr0 & Hcr).
      exists k0, h0. cbn [x_h x_ch]. split; [exact I1|]. split; [exact I2|]. split; [exact I3|]. split; [exact I4|]. split.
      { intros c' Hl'. unfold fset. destruct (Nat.eqb_spec c' c) as [->|]; [|apply I5; exact Hl'].
        cbn [chan_ok]. split; [exact Hj|]. apply bread_ext. intros i Hi. rewrite (I4 c Hcr). apply (HG k0 h0); [exact I1|left; exact Hl| |exact Hi].
        apply (joined_ctl (x_h x)); [exact I2|exact Hj]. }
      split.
      { intros c' Hl'. unfold fset. destruct (Nat.eqb_spec c' c) as [->|]; [congruence|apply I6; exact Hl']. }
      assert (Hfs : forall c', fset (x_ch x) c (FFly (bread (h_mem (x_h x) c) (re_off ne c) (re_len ne c))) c' = FDone <-> x_ch x c' = FDone).
      { intros c'. unfold fset. destruct (Nat.eqb_spec c' c) as [->|]; [rewrite Hw; split; discriminate|tauto]. }
      split; [intros c' i Ec; apply I7; apply Hfs; exact Ec|]. split.
      { intros i Hi. apply I8. intros c' Ec. apply Hi. apply Hfs. exact Ec. }
      destruct I9 as [(c' & Ec)|E]; [left; exists c'; apply Hfs; exact Ec|right; exact E].
    + destruct (re_last_le1 c Hl) as (Hc & Hr0 & Hcr). pose proof (I5 c Hl) as Hch. rewrite Hw in Hch. destruct Hch as (Hjc & ->).
      exists k0, h0. cbn [x_h x_ch h_ctl h_net h_mem]. split; [exact I1|]. split; [exact I2|]. split; [exact I3|].
      split.
      { intros p Hp. unfold hset. destruct (Nat.eqb_spec p root); [contradiction|apply I4; exact Hp]. }
      rewrite firstn_all2 by (rewrite bread_length; lia).
      split.
      { intros c' Hl'. unfold fset. destruct (Nat.eqb_spec c' c) as [->|].
        - cbn [chan_ok]. split; [exact Hjc|exact Hj].
        - specialize (I5 c' Hl'). destruct (x_ch x c'); exact I5. }
      split.
      { intros c' Hl'. unfold fset. destruct (Nat.eqb_spec c' c) as [->|]; [congruence|apply I6; exact Hl']. }
      unfold hset. rewrite Nat.eqb_refl. split.
      { intros c' i Ec Hi. unfold fset in Ec. destruct (Nat.eqb_spec c' c) as [->|Hne].
        - rewrite (bwrite_in _ _ _ _ (G c 0)) by (rewrite bread_length; lia). rewrite nth_bread by lia. f_equal. lia.
        - rewrite bwrite_out; [apply (I7 c' i Ec Hi)|]. rewrite bread_length.
          destruct (Nat.lt_ge_cases i (re_off ne c)); [left; assumption|right].
          destruct (Nat.lt_ge_cases i (re_off ne c + re_len ne c)); [exfalso|assumption].
          apply Hne. assert (Hl' : re_last root c' = true) by (destruct (re_last root c') eqn:E; [reflexivity|rewrite (I6 c' E) in Ec; discriminate]).
          destruct (re_last_le1 c' Hl') as (Hc' & _). apply (re_parts_disj c' c i); lia. }
      split; [|left; exists c; unfold fset; rewrite Nat.eqb_refl; reflexivity].
      intros i Hi. assert (Hout : i < re_off ne c \/ re_off ne c + re_len ne c <= i).
      { specialize (Hi c). unfold fset in Hi. rewrite Nat.eqb_refl in Hi. specialize (Hi eq_refl). lia. }
      rewrite bwrite_out by (rewrite bread_length; exact Hout). apply I8. intros c' Ec. apply Hi. unfold fset.
      destruct (c' =? c); [reflexivity|exact Ec].
Qed.

(** The result at a root other than 0. *)
Lemma last_result : forall k x, root <> 0 -> xexec op n ne root src k x -> re_done n root x root ->
  (forall i, i < re_split ne -> h_mem (x_h x) root i = G 0 i) /\
  (forall i, re_split ne <= i < ne -> h_mem (x_h x) root i = G 1 i) /\
  (forall i, ne <= i -> h_mem (x_h x) root i = src root i).
Proof.
  intros k x Hr0 Hx (D1 & D2 & D3). destruct (xinv_exec k x Hx) as (k0 & h0 & I1 & I2 & I3 & I4 & I5 & I6 & I7 & I8 & I9).
  assert (L0 : re_last root 0 = true).
  { unfold re_last. destruct (Nat.eqb_spec root 0); [contradiction|reflexivity]. }
  assert (Hsp : re_split ne <= ne) by (unfold re_split; destruct (half_split ne) as (E1 & E2 & E3); lia).
  split; [|split].
  - intros i Hi. apply (I7 0); [apply D3; [exact L0|reflexivity]|]. unfold re_off, re_len. cbn [Nat.eqb]. lia.
  - intros i Hi. destruct (Nat.eq_dec root 1) as [E1|E1].
    + rewrite I8.
      * rewrite E1. apply (HG k0 h0 1); [exact I1|right; auto| |unfold re_off, re_len; cbn [Nat.eqb]; lia].
        apply (joined_ctl (x_h x)); [exact I2|]. intros v Hv. apply D1. rewrite E1. exact Hv.
      * intros c Ec Hc. assert (Hl : re_last root c = true) by (destruct (re_last root c) eqn:E; [reflexivity|rewrite (I6 c E) in Ec; discriminate]).
        destruct (re_last_le1 c Hl) as ([-> | ->] & _ & Hne); [|lia]. unfold re_off, re_len in Hc. cbn [Nat.eqb] in Hc. lia.
    + assert (L1 : re_last root 1 = true).
      { unfold re_last. destruct (Nat.eqb_spec root 0); [contradiction|]. destruct (Nat.eqb_spec root 1); [contradiction|reflexivity]. }
      apply (I7 1); [apply D3; [exact L1|reflexivity]|]. unfold re_off, re_len. cbn [Nat.eqb]. lia.
  - intros i Hi. rewrite I8.
    + apply (re_outside op n ne root src ltac:(lia) k0); [|exact Hi]. rewrite <- re_pow. exact I1.
    + intros c Ec Hc. destruct c as [|c]; unfold re_off, re_len in Hc; cbn [Nat.eqb] in Hc; lia.
Qed.

(** Progress and termination. *)
Lemma hstep_back : forall h h0 h0', h_ctl h = h_ctl h0 -> h_net h = h_net h0 -> hstep s rr h0 h0' -> exists h', hstep s rr h h'.
Proof.
  intros h h0 h0' Ec En Hs.
  destruct Hs as [h0 v l Hv Hc Hr Ho | h0 v l q Hv Hc Ho Hs Ht | h0 v l q m n1 n2 Hv Hc Ho Hr Hf' Hn
                 | h0 v l Hv Hc Ho H1 H3]; rewrite <- Ec in Hc; eexists.
  - apply (h_enter s rr h v l); assumption.
  - apply (h_send s rr h v l q); assumption.
  - apply (h_recv s rr h v l q m n1 n2); try assumption. rewrite En. exact Hn.
  - apply (h_leave s rr h v l); assumption.
Qed.

Lemma re_local' : local s rr (foot n ne) src.
Proof. unfold rr. rewrite re_pow. apply re_local. lia. Qed.

Definition chan_size (f : fstat T) : nat := match f with FWait => 0 | FFly _ => 1 | FDone => 2 end.

Lemma last_bounded : forall k x, xexec op n ne root src k x -> exists k0 h0, hexec s rr src k0 h0 /\
  h_ctl (x_h x) = h_ctl h0 /\ h_net (x_h x) = h_net h0 /\ (forall p, p <> root -> h_mem (x_h x) p = h_mem h0 p) /\
  (h_mem (x_h x) root = h_mem h0 root \/ re_joined n root (x_h x) root) /\
  k <= k0 + chan_size (x_ch x 0) + chan_size (x_ch x 1).
Proof.
  induction 1 as [|k x x' Hx IH Hs].
  - exists 0, (hinit src). split; [constructor|]. cbn. repeat split; auto.
  - destruct IH as (k0 & h0 & I1 & I2 & I3 & I4 & I5 & I6). assert (Hopen := hexec_open k0 h0 I1).
    destruct Hs as [x h' Hs | x c Hl Hj Hw | x c m Hl Hj Hw]; cbn [x_h x_ch h_ctl h_net h_mem].
    + destruct (hstep_transfer (x_h x) h0 h' Hopen I2 I3 I4 I5 Hs) as (h0' & T1 & T2 & T3 & T4 & T5 & T6).
      exists (S k0), h0'. split; [eapply hxS; [exact I1|exact T1]|]. split; [exact T2|]. split; [exact T3|]. split; [exact T4|].
      split; [|lia]. destruct I5 as [E|Hj]; [left; apply T6; exact E|right].
      apply (joined_still (x_h x) h' root); [rewrite I2; exact Hopen|exact Hs|exact Hj|exact Hrn].
    + exists k0, h0. split; [exact I1|]. split; [exact I2|]. split; [exact I3|]. split; [exact I4|]. split; [exact I5|].
      destruct (re_last_le1 c Hl) as ([-> | ->] & _); unfold fset; cbn [Nat.eqb chan_size]; rewrite Hw in I6; cbn [chan_size] in I6; lia.
    + exists k0, h0. split; [exact I1|]. split; [exact I2|]. split; [exact I3|].
      split; [intros p Hp; unfold hset; destruct (Nat.eqb_spec p root); [contradiction|apply I4; exact Hp]|].
      split; [right; exact Hj|].
      destruct (re_last_le1 c Hl) as ([-> | ->] & _); unfold fset; cbn [Nat.eqb chan_size]; rewrite Hw in I6; cbn [chan_size] in I6; lia.
Qed.
End Last.
