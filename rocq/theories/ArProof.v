(** Virtual ranks and recursive halving. *)
From Coq Require Import List Arith Lia Bool.
From Verif Require Import RdModel RdProof AgProof ArModel.
Import ListNotations.

(** * Folding *)

(** The hypotheses under which the code uses the map: [vn] is the smallest power
    of two not below [n]. *)
Definition folds (n vn : nat) : Prop := 0 < n /\ n <= vn /\ vn < 2 * n.

Lemma folds_pow2 : forall n, 0 < n -> folds n (pow2_of n).
Proof.
  intros n Hn. destruct (ctree_ok n) as (P1 & P2 & P3). rewrite P1. split; [exact Hn|split; [exact P2|]].
  destruct P3 as [P3|P3].
  - rewrite P3 in *. cbn in *. lia.
  - destruct (log2_of n) as [|L]; [cbn in *; lia|]. cbn [Nat.pow].
    replace (S L - 1) with L in P3 by lia. lia.
Qed.

Lemma roles_of_real : forall n vn v a, folds n vn -> v < vn -> a < n ->
  (In v (real_to_virtual n vn a) <-> virtual_to_real n vn v = a).
Proof.
  intros n vn v a (H1 & H2 & H3) Hv Ha. unfold real_to_virtual, virtual_to_real.
  pose proof (Nat.div_mod v 2 ltac:(lia)) as Hd. pose proof (Nat.mod_upper_bound v 2 ltac:(lia)) as Hm.
  destruct (Nat.leb_spec (vn - n) a), (Nat.leb_spec (2 * (vn - n)) v); cbn [In]; lia.
Qed.

Lemma v2r_lt : forall n vn v, folds n vn -> v < vn -> virtual_to_real n vn v < n.
Proof.
  intros n vn v (H1 & H2 & H3) Hv. unfold virtual_to_real.
  destruct (Nat.leb_spec (2 * (vn - n)) v); [lia|]. apply Nat.div_lt_upper_bound; lia.
Qed.

Lemma shared_role_spec : forall n vn v vp, folds n vn -> v < vn -> vp < vn ->
  (shared_role n vn v vp = true <-> virtual_to_real n vn vp = virtual_to_real n vn v).
Proof.
  intros n vn v vp Hf Hv Hp. unfold shared_role. rewrite existsb_exists.
  rewrite <- (roles_of_real n vn vp _ Hf Hp (v2r_lt n vn v Hf Hv)).
  split.
  - intros (x & Hx & He). apply Nat.eqb_eq in He. subst x. exact Hx.
  - intros H. exists vp. split; [exact H|apply Nat.eqb_refl].
Qed.

(** * Regions *)

(** The part of the buffer role [v] is responsible for before round [r]. *)
Fixpoint reg (ne v r : nat) : nat * nat :=
  match r with
  | 0 => (0, ne)
  | S r' => let '(o, l) := reg ne v r' in
            if is_low v (2 ^ r') then (o, l - l / 2) else (o + (l / 2 + l mod 2), l / 2)
  end.

Lemma half_split : forall l, l / 2 + l mod 2 = l - l / 2 /\ l / 2 + (l - l / 2) = l /\ l / 2 <= l.
Proof.
  intros l. pose proof (Nat.div_mod l 2 ltac:(lia)). pose proof (Nat.mod_upper_bound l 2 ltac:(lia)). lia.
Qed.

Definition act_at (ne v r : nat) : wact :=
  let '(o, l) := reg ne v r in
  if is_low v (2 ^ r) then
    {| w_vp := v + 2 ^ r; w_so := o + (l - l / 2); w_sn := l / 2; w_ro := o; w_rn := l - l / 2 |}
  else
    {| w_vp := v - 2 ^ r; w_so := o; w_sn := l - l / 2; w_ro := o + (l - l / 2); w_rn := l / 2 |}.

Lemma act_at_reg : forall ne v r, reg ne v (S r) = (w_ro (act_at ne v r), w_rn (act_at ne v r)).
Proof.
  intros ne v r. cbn [reg]. unfold act_at. destruct (reg ne v r) as [o l].
  destruct (half_split l) as (H1 & _). destruct (is_low v (2 ^ r)); cbn [w_ro w_rn]; [reflexivity|].
  rewrite H1. reflexivity.
Qed.

Lemma wilke_loop_spec : forall ne v k r,
  length (wilke_loop k v (2 ^ r) (fst (reg ne v r)) (snd (reg ne v r))) = k /\
  forall i, i < k ->
    nth_error (wilke_loop k v (2 ^ r) (fst (reg ne v r)) (snd (reg ne v r))) i = Some (act_at ne v (r + i)).
Proof.
  intros ne v k. induction k as [|k IH]; intros r.
  - split; [reflexivity|]. intros i Hi; lia.
  - cbn [wilke_loop].
    match goal with |- context[wilke_loop k v (2 ^ r * 2) (w_ro ?a) (w_rn ?a)] =>
      assert (Ha : a = act_at ne v r); [|rewrite Ha] end.
    { unfold act_at. destruct (reg ne v r) as [o l]; cbn [fst snd].
      destruct (half_split l) as (H1 & H2 & H3).
      destruct (is_low v (2 ^ r)); f_equal; lia. }
    pose proof (act_at_reg ne v r) as Hr.
    specialize (IH (S r)). rewrite Hr in IH. cbn [fst snd] in IH.
    replace (2 ^ r * 2) with (2 ^ S r) by (cbn [Nat.pow]; lia).
    destruct IH as (I1 & I2). split; [cbn [length]; rewrite I1; reflexivity|].
    intros [|i] Hi; cbn [nth_error].
    + rewrite Nat.add_0_r. reflexivity.
    + rewrite I2 by lia. replace (r + S i) with (S r + i) by lia. reflexivity.
Qed.

Lemma wilke_nth : forall L ne v r, r < L -> nth_error (wilke_loop L v 1 0 ne) r = Some (act_at ne v r).
Proof. intros L ne v r Hr. apply (wilke_loop_spec ne v L 0). exact Hr. Qed.

Definition mirror (a : wact) : wact :=
  {| w_vp := w_vp a; w_so := w_ro a; w_sn := w_rn a; w_ro := w_so a; w_rn := w_sn a |}.

Lemma wilke_act_lo : forall L ne v r, r < L -> wilke_act L ne v r = Some (true, act_at ne v r).
Proof.
  intros L ne v r Hr. unfold wilke_act. rewrite (proj2 (Nat.ltb_lt r L) Hr).
  rewrite wilke_nth by exact Hr. reflexivity.
Qed.

Lemma wilke_act_hi : forall L ne v r, L <= r < 2 * L ->
  wilke_act L ne v r = Some (false, mirror (act_at ne v (2 * L - 1 - r))).
Proof.
  intros L ne v r Hr. unfold wilke_act. rewrite (proj2 (Nat.ltb_ge r L)) by lia.
  rewrite (proj2 (Nat.ltb_lt r (2 * L))) by lia. rewrite wilke_nth by lia. reflexivity.
Qed.

(** The partner in round [r] differs in bit [r] only. *)
Definition flip (v r : nat) : nat := if is_low v (2 ^ r) then v + 2 ^ r else v - 2 ^ r.

Lemma act_at_vp : forall ne v r, w_vp (act_at ne v r) = flip v r.
Proof. intros. unfold act_at, flip. destruct (reg ne v r). destruct (is_low v (2 ^ r)); reflexivity. Qed.

Lemma is_low_spec : forall v g, 0 < g -> (is_low v g = true <-> (v / g) mod 2 = 0).
Proof. intros v g Hg. unfold is_low. apply Nat.eqb_eq. Qed.

Lemma flip_facts : forall v r,
  let g := 2 ^ r in
  (is_low v g = true -> is_low (flip v r) g = false /\ flip v r = v + g) /\
  (is_low v g = false -> is_low (flip v r) g = true /\ v = flip v r + g) /\
  flip (flip v r) r = v /\ flip v r / 2 ^ S r = v / 2 ^ S r /\ flip v r mod 2 ^ r = v mod 2 ^ r.
Proof.
  intros v r g. pose proof (pow2_pos r) as Hp. fold g in Hp.
  pose proof (Nat.div_mod v g ltac:(lia)) as Hv. pose proof (Nat.mod_upper_bound v g ltac:(lia)) as Hvm.
  pose proof (Nat.div_mod (v / g) 2 ltac:(lia)) as Hb. pose proof (Nat.mod_upper_bound (v / g) 2 ltac:(lia)) as Hbm.
  set (x := v / g / 2) in *. set (y := v mod g) in *.
  assert (Hdecomp : forall z b, z < g -> b < 2 -> (2 * x * g + b * g + z) / g = 2 * x + b /\
      ((2 * x * g + b * g + z) / g) mod 2 = b /\ (2 * x * g + b * g + z) mod g = z /\
      (2 * x * g + b * g + z) / (2 * g) = x).
  { intros z b Hz Hb2.
    assert (E : (2 * x * g + b * g + z) / g = 2 * x + b) by (symmetry; apply (Nat.div_unique _ g _ z); lia).
    split; [exact E|]. split; [|split].
    - rewrite E. symmetry. apply (Nat.mod_unique _ 2 x b); lia.
    - symmetry. apply (Nat.mod_unique _ g (2 * x + b) z); lia.
    - symmetry. apply (Nat.div_unique _ (2 * g) x (b * g + z)); [|lia].
      assert (b * g <= 1 * g) by (apply Nat.mul_le_mono_r; lia). lia. }
  assert (Hlow : is_low v g = true <-> (v / g) mod 2 = 0) by (apply is_low_spec; lia).
  destruct (is_low v g) eqn:El.
  - assert (H0 : (v / g) mod 2 = 0) by (apply Hlow; reflexivity).
    rewrite H0 in Hb.
    assert (Ev : v = 2 * x * g + 0 * g + y) by (rewrite Hv at 1; rewrite Hb; lia).
    assert (Ef : flip v r = 2 * x * g + 1 * g + y) by (unfold flip; fold g; rewrite El; lia).
    destruct (Hdecomp y 1 Hvm ltac:(lia)) as (D1 & D2 & D3 & D4).
    destruct (Hdecomp y 0 Hvm ltac:(lia)) as (C1 & C2 & C3 & C4).
    assert (Elf : is_low (flip v r) g = false).
    { unfold is_low. rewrite Ef, D2. reflexivity. }
    split; [|split; [|split; [|split]]].
    + intros _. split; [exact Elf|lia].
    + discriminate.
    + unfold flip at 1. fold g. rewrite Elf. lia.
    + change (2 ^ S r) with (2 * g). rewrite Ef, D4. rewrite Ev, C4. reflexivity.
    + fold g. rewrite Ef, D3. reflexivity.
  - assert (H1 : (v / g) mod 2 = 1).
    { destruct (Nat.eq_dec ((v / g) mod 2) 0) as [H|H]; [|lia].
      pose proof (proj2 Hlow H). discriminate. }
    rewrite H1 in Hb.
    assert (Ev : v = 2 * x * g + 1 * g + y) by (rewrite Hv at 1; rewrite Hb; lia).
    assert (Ef : flip v r = 2 * x * g + 0 * g + y) by (unfold flip; fold g; rewrite El; lia).
    destruct (Hdecomp y 1 Hvm ltac:(lia)) as (D1 & D2 & D3 & D4).
    destruct (Hdecomp y 0 Hvm ltac:(lia)) as (C1 & C2 & C3 & C4).
    assert (Elf : is_low (flip v r) g = true).
    { unfold is_low. rewrite Ef, C2. reflexivity. }
    split; [|split; [|split; [|split]]].
    + discriminate.
    + intros _. split; [exact Elf|lia].
    + unfold flip at 1. fold g. rewrite Elf. lia.
    + change (2 ^ S r) with (2 * g). rewrite Ef, C4. rewrite Ev, D4. reflexivity.
    + fold g. rewrite Ef, C3. reflexivity.
Qed.

Lemma is_low_mod : forall v w i r, i < r -> v mod 2 ^ r = w mod 2 ^ r -> is_low v (2 ^ i) = is_low w (2 ^ i).
Proof.
  intros v w i r Hi He. unfold is_low. f_equal.
  assert (H : forall z, (z / 2 ^ i) mod 2 = (z mod 2 ^ r) / 2 ^ i mod 2).
  { intros z. pose proof (pow2_pos i). pose proof (pow2_pos r).
    replace (2 ^ r) with (2 ^ i * (2 * 2 ^ (r - S i))).
    - rewrite Nat.mod_mul_r by (pose proof (pow2_pos (r - S i)); lia).
      rewrite (Nat.mul_comm (2 ^ i)), Nat.div_add by lia.
      rewrite (Nat.div_small (z mod 2 ^ i)) by (apply Nat.mod_upper_bound; lia).
      rewrite Nat.add_0_l. rewrite Nat.mod_mul_r by (pose proof (pow2_pos (r - S i)); lia).
      rewrite (Nat.mul_comm 2), Nat.mod_add by lia. rewrite Nat.mod_mod by lia. reflexivity.
    - change (2 * 2 ^ (r - S i)) with (2 ^ S (r - S i)). rewrite <- Nat.pow_add_r. f_equal. lia. }
  rewrite (H v), (H w), He. reflexivity.
Qed.

Lemma reg_mod : forall ne r v w, v mod 2 ^ r = w mod 2 ^ r -> reg ne v r = reg ne w r.
Proof.
  assert (H : forall ne r i v w, i <= r -> v mod 2 ^ r = w mod 2 ^ r -> reg ne v i = reg ne w i).
  { intros ne r i v w. induction i as [|i IH]; intros Hi He; [reflexivity|].
    cbn [reg]. rewrite IH by (lia || exact He). rewrite (is_low_mod v w i r) by (lia || exact He). reflexivity. }
  intros ne r v w He. apply (H ne r r v w); [lia|exact He].
Qed.

Lemma reg_flip : forall ne r v, reg ne (flip v r) r = reg ne v r.
Proof. intros ne r v. apply reg_mod. apply (flip_facts v r). Qed.

(** What one partner sends is exactly what the other one receives. *)
Lemma act_at_flip : forall ne r v,
  w_so (act_at ne (flip v r) r) = w_ro (act_at ne v r) /\
  w_sn (act_at ne (flip v r) r) = w_rn (act_at ne v r) /\
  w_ro (act_at ne (flip v r) r) = w_so (act_at ne v r) /\
  w_rn (act_at ne (flip v r) r) = w_sn (act_at ne v r).
Proof.
  intros ne r v. unfold act_at. rewrite reg_flip. destruct (reg ne v r) as [o l].
  destruct (flip_facts v r) as (F1 & F2 & _). cbv zeta in F1, F2.
  destruct (is_low v (2 ^ r)) eqn:El.
  - destruct (F1 eq_refl) as (-> & _). cbn. auto.
  - destruct (F2 eq_refl) as (-> & _). cbn. auto.
Qed.

(** The region before the round is the disjoint union of the part sent and the
    part received. *)
Lemma act_at_split : forall ne r v i,
  let '(o, l) := reg ne v r in
  let a := act_at ne v r in
  (o <= i < o + l <-> (w_so a <= i < w_so a + w_sn a \/ w_ro a <= i < w_ro a + w_rn a)) /\
  (w_so a + w_sn a <= w_ro a \/ w_ro a + w_rn a <= w_so a).
Proof.
  intros ne r v i. unfold act_at. destruct (reg ne v r) as [o l].
  destruct (half_split l) as (H1 & H2 & H3). destruct (is_low v (2 ^ r)); cbv zeta;
    cbn [w_so w_sn w_ro w_rn]; lia.
Qed.

Lemma flip_lt : forall v r L, r < L -> v < 2 ^ L -> flip v r < 2 ^ L.
Proof.
  intros v r L Hr Hv. destruct (flip_facts v r) as (_ & _ & _ & Hd & _).
  assert (HL : 2 ^ L = 2 ^ S r * 2 ^ (L - S r)) by (rewrite <- Nat.pow_add_r; f_equal; lia).
  pose proof (pow2_pos (S r)) as Hp.
  assert (Hb : v / 2 ^ S r < 2 ^ (L - S r)) by (apply Nat.div_lt_upper_bound; [lia|rewrite <- HL; exact Hv]).
  rewrite <- Hd in Hb.
  pose proof (Nat.div_mod (flip v r) (2 ^ S r) ltac:(lia)).
  pose proof (Nat.mod_upper_bound (flip v r) (2 ^ S r) ltac:(lia)).
  rewrite HL. assert (2 ^ S r * S (flip v r / 2 ^ S r) <= 2 ^ S r * 2 ^ (L - S r)) by (apply Nat.mul_le_mono_l; lia).
  rewrite Nat.mul_succ_r in H1. lia.
Qed.
