(** The fan-out tree of start messages. *)
From Coq Require Import List Arith Bool Lia Permutation.
From Verif Require Import ListFacts LnModel.
Import ListNotations.

Lemma pow_pos k : 0 < 2 ^ k.
Proof. induction k; simpl; lia. Qed.

Lemma pow2_enough fuel : forall p n, 0 < p -> n <= p + fuel ->
  n <= p * 2 ^ pow2_at_least fuel p n.
Proof.
  induction fuel as [|f IH]; intros p n P H; cbn [pow2_at_least].
  - simpl. lia.
  - destruct (p <? n) eqn:E; [|apply Nat.ltb_ge in E; simpl; lia].
    specialize (IH (p * 2) n ltac:(lia) ltac:(lia)). rewrite Nat.pow_succ_r'. nia.
Qed.

Lemma mod_off me off k : off mod 2 ^ k = 0 -> off <= me < off + 2 ^ k -> me mod 2 ^ k = me - off.
Proof.
  intros A B. pose proof (pow_pos k). apply Nat.mod_divide in A; [|lia]. destruct A as [q ->].
  symmetry. apply Nat.mod_unique with (q := q); lia.
Qed.

(** The messages of rank [me]: [me + 2^j] for the zero bits below its lowest one. *)
Lemma fwd_spec n : forall k me off m, off mod 2 ^ k = 0 -> off <= me < off + 2 ^ k ->
  (In m (fwd me n k off) <->
   exists j, j < k /\ m = me + 2 ^ j /\ me mod 2 ^ S j = 0 /\ m < n).
Proof.
  induction k as [|k IH]; intros me off m A B; cbn [fwd].
  - split; [intros []|intros (j & J & _); lia].
  - pose proof (pow_pos k) as Pk. pose proof (pow_pos (S k)) as PSk.
    assert (D: 2 ^ S k = 2 * 2 ^ k) by apply Nat.pow_succ_r'.
    pose proof (mod_off me off (S k) A B) as M. cbv zeta. rewrite M.
    apply Nat.mod_divide in A; [|lia]. destruct A as [q Eo].
    assert (A1: off mod 2 ^ k = 0) by (rewrite Eo, D; replace (q * (2 * 2 ^ k)) with (2 * q * 2 ^ k) by lia; apply Nat.mod_mul; lia).
    assert (A2: (off + 2 ^ k) mod 2 ^ k = 0).
    { replace (off + 2 ^ k) with (off + 1 * 2 ^ k) by lia. rewrite Nat.mod_add by lia. exact A1. }
    rewrite in_app_iff.
    assert (Rec: In m (if off + 2 ^ k <=? me then fwd me n k (off + 2 ^ k) else fwd me n k off) <->
            exists j, j < k /\ m = me + 2 ^ j /\ me mod 2 ^ S j = 0 /\ m < n).
    { destruct (off + 2 ^ k <=? me) eqn:E.
      - apply Nat.leb_le in E. apply IH; [exact A2|lia].
      - apply Nat.leb_gt in E. apply IH; [exact A1|lia]. }
    rewrite Rec. split.
    + intros [H|(j & J1 & J2)].
      * destruct (me - off =? 0) eqn:E; [|destruct H]. apply Nat.eqb_eq in E.
        destruct (off + 2 ^ k <? n) eqn:L; [|destruct H]. apply Nat.ltb_lt in L.
        destruct H as [H|[]]. exists k. repeat split; try lia.
      * exists j. split; [lia|exact J2].
    + intros (j & J1 & J2 & J3 & J4). destruct (Nat.eq_dec j k) as [->|N].
      * left. rewrite M in J3. rewrite J3. cbn [Nat.eqb]. 
        replace (off + 2 ^ k <? n) with true by (symmetry; apply Nat.ltb_lt; lia).
        cbn [In]. left. lia.
      * right. exists j. repeat split; auto. lia.
Qed.

Lemma fwd_nodup n : forall k me off, off mod 2 ^ k = 0 -> off <= me < off + 2 ^ k ->
  NoDup (fwd me n k off).
Proof.
  induction k as [|k IH]; intros me off A B; cbn [fwd]; [constructor|].
  pose proof (pow_pos k) as Pk. pose proof (pow_pos (S k)) as PSk.
  assert (D: 2 ^ S k = 2 * 2 ^ k) by apply Nat.pow_succ_r'.
  pose proof (mod_off me off (S k) A B) as M. cbv zeta. rewrite M.
  apply Nat.mod_divide in A; [|lia]. destruct A as [q Eo].
  assert (A1: off mod 2 ^ k = 0) by (rewrite Eo, D; replace (q * (2 * 2 ^ k)) with (2 * q * 2 ^ k) by lia; apply Nat.mod_mul; lia).
  assert (A2: (off + 2 ^ k) mod 2 ^ k = 0).
  { replace (off + 2 ^ k) with (off + 1 * 2 ^ k) by lia. rewrite Nat.mod_add by lia. exact A1. }
  apply nodup_app.
  - destruct (me - off =? 0); [destruct (off + 2 ^ k <? n)|]; repeat constructor. intros [].
  - destruct (off + 2 ^ k <=? me) eqn:E; apply IH; auto;
      [apply Nat.leb_le in E|apply Nat.leb_gt in E]; lia.
  - intros x Hx. destruct (me - off =? 0) eqn:E; [|destruct Hx]. apply Nat.eqb_eq in E.
    destruct (off + 2 ^ k <? n); [|destruct Hx]. destruct Hx as [<-|[]].
    destruct (off + 2 ^ k <=? me) eqn:E2; [apply Nat.leb_le in E2; lia|].
    rewrite fwd_spec; [|exact A1|lia]. intros (j & J1 & J2 & _).
    assert (2 ^ j < 2 ^ k) by (apply Nat.pow_lt_mono_r; lia). lia.
Qed.

(** [child r m]: [r] is [m] with its lowest one bit cleared. *)
Definition child (r m : nat) : Prop := exists j, m = r + 2 ^ j /\ r mod 2 ^ S j = 0.

Lemma forward_spec n r m : r < n ->
  (In m (forward_to r n) <-> child r m /\ m < n).
Proof.
  intro R. unfold forward_to.
  pose proof (pow2_enough n 1 n ltac:(lia) ltac:(lia)) as E. rewrite Nat.mul_1_l in E.
  set (k := pow2_at_least n 1 n) in *.
  rewrite fwd_spec; [|apply Nat.mod_0_l; pose proof (pow_pos k); lia|lia]. split.
  - intros (j & J1 & J2 & J3 & J4). split; [exists j; auto|exact J4].
  - intros [(j & J2 & J3) J4]. exists j. repeat split; auto.
    destruct (Nat.lt_ge_cases j k) as [C|C]; [exact C|].
    assert (2 ^ k <= 2 ^ j) by (apply Nat.pow_le_mono_r; lia). lia.
Qed.

Lemma forward_nodup n r : r < n -> NoDup (forward_to r n).
Proof.
  intro R. unfold forward_to.
  pose proof (pow2_enough n 1 n ltac:(lia) ltac:(lia)) as E. rewrite Nat.mul_1_l in E.
  apply fwd_nodup; [apply Nat.mod_0_l; pose proof (pow_pos (pow2_at_least n 1 n)); lia|lia].
Qed.

Lemma child_unique r1 r2 m : child r1 m -> child r2 m -> r1 = r2.
Proof.
  intros (j1 & E1 & M1) (j2 & E2 & M2).
  assert (W: forall j1 j2 r1 r2, m = r1 + 2 ^ j1 -> r1 mod 2 ^ S j1 = 0 -> m = r2 + 2 ^ j2 ->
     r2 mod 2 ^ S j2 = 0 -> j1 < j2 -> False).
  { clear. intros j1 j2 r1 r2 E1 M1 E2 M2 L.
    pose proof (pow_pos (S j1)). pose proof (pow_pos (S j2)). pose proof (pow_pos j1).
    apply Nat.mod_divide in M1; [|lia]. apply Nat.mod_divide in M2; [|lia].
    destruct M1 as [a A]. destruct M2 as [b B].
    assert (P: 2 ^ j2 = 2 ^ (j2 - S j1) * 2 ^ S j1).
    { rewrite <- Nat.pow_add_r. f_equal. lia. }
    assert (P2: 2 ^ S j2 = 2 * 2 ^ j2) by apply Nat.pow_succ_r'.
    assert (P1: 2 ^ S j1 = 2 * 2 ^ j1) by apply Nat.pow_succ_r'.
    set (x := 2 ^ (j2 - S j1)) in *. set (y := 2 ^ j1) in *.
    assert (a * (2 * y) + y = (2 * b + 1) * (x * (2 * y))) by (rewrite <- P1, <- P; nia).
    assert (2 * a + 1 = (2 * b + 1) * (2 * x)) by nia. nia. }
  destruct (Nat.lt_trichotomy j1 j2) as [C|[C|C]].
  - exfalso. apply (W j1 j2 r1 r2); auto.
  - subst. lia.
  - exfalso. apply (W j2 j1 r2 r1); auto.
Qed.

Lemma child_exists : forall m, 0 < m -> exists r, child r m /\ r < m.
Proof.
  induction m as [m IH] using (well_founded_induction lt_wf). intro P.
  destruct (Nat.Even_or_Odd m) as [[h E]|[h E]].
  - destruct (IH h ltac:(lia) ltac:(lia)) as (r & (j & E1 & E2) & L).
    exists (2 * r). split; [|lia]. exists (S j). split.
    + rewrite Nat.pow_succ_r'. lia.
    + rewrite (Nat.pow_succ_r' 2 (S j)). pose proof (pow_pos (S j)).
      rewrite Nat.mul_mod_distr_l by lia. lia.
  - exists (2 * h). split; [|lia]. exists 0. split; [simpl; lia|].
    change (2 ^ 1) with 2. rewrite Nat.mul_comm. apply Nat.mod_mul. lia.
Qed.

Lemma child_lt r m : child r m -> r < m.
Proof. intros (j & -> & _). pose proof (pow_pos j). lia. Qed.

(** ** The protocol *)

Record oinv (n : nat) (s : ostate) : Prop := {
  o_nodup : NoDup (in_flight s ++ started s);
  o_range : forall r, In r (in_flight s ++ started s) -> r < n;
  o_root : In 0 (in_flight s ++ started s);
  o_kids : forall r m, In r (started s) -> child r m -> m < n -> In m (in_flight s ++ started s);
  o_parent : forall m r, In m (in_flight s ++ started s) -> child r m -> In r (started s) }.

Lemma oreach_inv n s : 0 < n -> oreach n s -> oinv n s.
Proof.
  intros P H. induction H as [|s s' H I St].
  - constructor; simpl.
    + repeat constructor. simpl. tauto.
    + intros r [<-|[]]. exact P.
    + auto.
    + tauto.
    + intros m r [<-|[]] C. apply child_lt in C. lia.
  - destruct St as [a r b st]. destruct I as [I1 I2 I3 I4 I5]. simpl in *.
    assert (Rn: r < n). { apply I2. apply in_or_app. left. apply in_or_app. simpl. auto. }
    assert (Q: Permutation ((a ++ r :: b) ++ st) ((a ++ b) ++ r :: st)).
    { rewrite <- Permutation_middle. rewrite <- Permutation_middle. reflexivity. }
    assert (Q2: Permutation ((a ++ b ++ forward_to r n) ++ r :: st)
                            (forward_to r n ++ ((a ++ b) ++ r :: st))).
    { rewrite (app_assoc a b), <- app_assoc. rewrite Permutation_app_comm.
      rewrite <- app_assoc. apply Permutation_app_head. apply Permutation_app_comm. }
    assert (NR: ~ In r st).
    { intro K. apply nodup_app_iff in I1. destruct I1 as (_ & _ & I1). apply (I1 r); auto.
      apply in_or_app. simpl. auto. }
    assert (M: forall x, In x ((a ++ b ++ forward_to r n) ++ r :: st) <->
                In x (forward_to r n) \/ In x ((a ++ r :: b) ++ st)).
    { intro x. rewrite in_app_iff, in_app_iff. rewrite !in_app_iff. simpl. tauto. }
    constructor; simpl.
    + apply (Permutation_NoDup (Permutation_sym Q2)). apply nodup_app.
      * apply forward_nodup, Rn.
      * apply (Permutation_NoDup Q), I1.
      * intros x Hx K. apply forward_spec in Hx; [|exact Rn]. destruct Hx as [Hx _].
        apply NR. apply (I5 x r); [|exact Hx]. apply (Permutation_in _ (Permutation_sym Q)), K.
    + intros x Hx. apply M in Hx. destruct Hx as [Hx|Hx]; [|auto].
      apply forward_spec in Hx; tauto.
    + apply M. auto.
    + intros x m [<-|Hx] C L; apply M.
      * left. apply forward_spec; auto.
      * right. apply (I4 x); auto.
    + intros m x Hm C. apply M in Hm. destruct Hm as [Hm|Hm].
      * apply forward_spec in Hm; [|exact Rn]. left. apply (child_unique r x m); tauto.
      * right. apply (I5 m); auto.
Qed.

Lemma oinv_done n s : oinv n s -> in_flight s = [] -> Permutation (started s) (seq 0 n).
Proof.
  intros I E. destruct I as [I1 I2 I3 I4 I5]. rewrite E in *. simpl in *.
  apply NoDup_Permutation; [exact I1|apply seq_NoDup|].
  intro x. rewrite in_seq. split; [intro H; specialize (I2 x H); lia|].
  intros [_ L]. simpl in L. revert L.
  induction x as [x IH] using (well_founded_induction lt_wf). intro L.
  destruct x as [|x]; [exact I3|].
  destruct (child_exists (S x) ltac:(lia)) as (r & C & Lt).
  apply (I4 r); auto. apply IH; lia.
Qed.

Lemma pow2_small fuel : forall p n k, 0 < p -> n <= p * 2 ^ k -> pow2_at_least fuel p n <= k.
Proof.
  induction fuel as [|f IH]; intros p n k P H; cbn [pow2_at_least]; [lia|].
  destruct (p <? n) eqn:E; [|lia]. apply Nat.ltb_lt in E.
  destruct k as [|k]; [simpl in H; lia|].
  specialize (IH (p * 2) n k ltac:(lia)). rewrite Nat.pow_succ_r' in H.
  assert (n <= p * 2 * 2 ^ k) by lia. lia.
Qed.

Lemma fwd_length n : forall k me off, length (fwd me n k off) <= k.
Proof.
  induction k as [|k IH]; intros me off; cbn [fwd]; [auto|]. cbv zeta. rewrite app_length.
  assert (length (if me mod 2 ^ S k =? 0 then if off + 2 ^ k <? n then [off + 2 ^ k] else [] else []) <= 1).
  { destruct (_ =? 0); [destruct (_ <? _)|]; simpl; lia. }
  destruct (off + 2 ^ k <=? me); [specialize (IH me (off + 2 ^ k))|specialize (IH me off)]; lia.
Qed.
