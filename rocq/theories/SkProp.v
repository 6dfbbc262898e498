(** The stacks of simulated threads: property C137. *)
From Coq Require Import List Arith NArith Bool Lia Permutation.
From Verif Require Import SkModel.
Import ListNotations.
Open Scope N_scope.

(** [x] is a byte of the stack (or guard) at [b]. *)
Definition on (c : conf) (b x : N) : Prop := b <= x < b + ss c.

Lemma walk_ends c a : 0 < step c -> forall fuel off, size c < off + N.of_nat fuel * step c ->
  exists l, walk (S fuel) c a off = Some l.
Proof.
  intros Z. induction fuel as [|f IH]; intros off F.
  - cbn [walk]. destruct (N.ltb_spec (off + step c) (size c)); [lia|eauto].
  - remember (S f) as f'. cbn [walk]. subst f'. destruct (N.ltb_spec (off + step c) (size c)) as [L|L]; [|eauto].
    destruct (IH (off + step c)) as [l E]; [lia|]. rewrite E. eauto.
Qed.
Lemma walk_in c a : 0 < step c -> forall fuel off l, walk fuel c a off = Some l -> forall x,
  In x l <-> exists k, x = a + off + k * step c /\ off + k * step c + step c < size c.
Proof.
  intros Z. induction fuel as [|f IH]; intros off l E x; cbn [walk] in E; [discriminate|].
  destruct (N.ltb_spec (off + step c) (size c)) as [L|L].
  - destruct (walk f c a (off + step c)) as [t|] eqn:W; [|discriminate]. injection E as <-.
    simpl. rewrite (IH _ _ W x). split.
    + intros [<-|(k & -> & K)]; [exists 0; lia|exists (N.succ k); nia].
    + intros (k & -> & K). destruct (N.eq_dec k 0) as [->|N0]; [left; lia|right]. exists (k - 1). nia.
  - injection E as <-. simpl. split; [tauto|]. intros (k & _ & K). nia.
Qed.
Lemma walk_nodup c a : 0 < step c -> forall fuel off l, walk fuel c a off = Some l -> NoDup l.
Proof.
  intros Z. induction fuel as [|f IH]; intros off l E; cbn [walk] in E; [discriminate|].
  destruct (N.ltb_spec (off + step c) (size c)) as [L|L].
  - destruct (walk f c a (off + step c)) as [t|] eqn:W; [|discriminate]. injection E as <-.
    constructor; [|eauto]. rewrite (walk_in c a Z _ _ _ W). intros (k & K & _). nia.
  - injection E as <-. constructor.
Qed.
Lemma aligned_start c a : 0 < ss c -> exists q, a + align c a = q * ss c.
Proof.
  intros Z. unfold align. pose proof (N.div_mod a (ss c) ltac:(lia)) as D.
  destruct (N.eqb_spec (a mod ss c) 0) as [E|E]; [exists (a / ss c); nia|].
  pose proof (N.mod_lt a (ss c) ltac:(lia)). exists (a / ss c + 1). nia.
Qed.

(** All that holds of the allocator. *)
Record inv (c : conf) (s : st) : Prop := {
  v_nodup : NoDup (live s ++ avail s);
  v_stack : forall b, In b (live s ++ avail s) -> exists a k, In a (chunks s) /\
      b = a + first c a + k * step c /\ first c a + k * step c + step c < size c;
  v_sep : forall i j a b, nth_error (chunks s) i = Some a -> nth_error (chunks s) j = Some b -> i <> j ->
      a + size c <= b \/ b + size c <= a;
  v_prot : forall g, In g (prot s) <-> protect c = true /\ exists a k, In a (chunks s) /\
      g = a + align c a + k * step c /\ align c a + k * step c + step c < size c }.

Lemma drop_perm b : forall l, In b l -> Permutation (b :: drop b l) l.
Proof.
  induction l as [|x l IH]; intros H; [destruct H|]. cbn [drop].
  destruct (N.eqb_spec b x) as [->|N0]; auto. destruct H as [->|H]; [congruence|].
  eapply perm_trans; [apply perm_swap|]. constructor. auto.
Qed.
Lemma step_pos c : 0 < ss c -> 0 < step c.
Proof. unfold step. destruct (protect c); lia. Qed.
Lemma stack_in_chunk c a k : 0 < ss c -> first c a + k * step c + step c < size c ->
  a <= a + first c a + k * step c /\ a + first c a + k * step c + ss c < a + size c.
Proof. intros Z. unfold step. destruct (protect c); lia. Qed.
Lemma sep_in c s a b : inv c s -> In a (chunks s) -> In b (chunks s) -> a = b \/ a + size c <= b \/ b + size c <= a.
Proof.
  intros V A B. apply In_nth_error in A as [i A]. apply In_nth_error in B as [j B].
  destruct (Nat.eq_dec i j) as [->|N0]; [left; congruence|right]. eapply v_sep; eauto.
Qed.

Lemma take_inv c s b l r : inv c (mkst (chunks s) (avail s) (prot s) (live s)) -> avail s = b :: l ->
  Ok (mkst (chunks s) l (prot s) (b :: live s)) b = Ok r b -> inv c r.
Proof.
  intros [V1 V2 V3 V4] A E. injection E as <-. cbn [chunks avail prot live] in *. rewrite A in *. split; cbn [chunks avail prot live].
  - eapply Permutation_NoDup; [|exact V1]. apply Permutation_sym, Permutation_middle.
  - intros x H. apply V2. eapply Permutation_in; [|exact H]. apply Permutation_middle.
  - exact V3.
  - exact V4.
Qed.
Lemma run_inv fuel c : 0 < ss c -> forall l s, run fuel c l s -> inv c s.
Proof.
  intros Z l s R. pose proof (step_pos c Z) as ZP. induction R as [|l s a s' r R IH F E|l s b R IH H].
  - split; simpl; [constructor|tauto|intros [|i] j a b X; discriminate|].
    intros g. split; [tauto|]. intros (_ & a & k & [] & _).
  - unfold alloc in E. destruct (avail s) as [|y t] eqn:A.
    + destruct (stacks fuel c a) as [w|] eqn:W; [|discriminate].
      destruct (guards fuel c a) as [g|] eqn:G; [|discriminate].
      set (s1 := mkst (chunks s ++ [a]) (rev w) (g ++ prot s) (live s)) in *.
      assert (V : inv c s1).
      { destruct (F eq_refl) as [_ FR]. unfold stacks in W. pose proof (walk_in c a ZP _ _ _ W) as WI.
        destruct IH as [V1 V2 V3 V4]. unfold s1. rewrite A, app_nil_r in V1, V2. split; cbn [chunks avail prot live].
        - assert (NW : NoDup (rev w)) by (apply NoDup_rev; eapply walk_nodup; eauto).
          assert (DJ : forall x, In x (live s) -> ~ In x (rev w)).
          { intros x X Y. apply in_rev, WI in Y as (k & -> & K). destruct (V2 _ X) as (b & k' & B & E' & K').
            pose proof (stack_in_chunk c a k Z K). pose proof (stack_in_chunk c b k' Z K').
            specialize (FR b B). lia. }
          clear - V1 NW DJ. induction (live s) as [|x l IH]; simpl; auto. inversion V1; subst. constructor.
          + rewrite in_app_iff. intros [X|X]; [auto|]. apply (DJ x); simpl; auto.
          + apply IH; auto. intros y Y. apply DJ. now right.
        - intros b B. apply in_app_iff in B as [B|B].
          + destruct (V2 _ B) as (x & k & X & K). exists x, k. split; auto. apply in_app_iff. auto.
          + apply in_rev, WI in B as (k & -> & K). exists a, k. split; [apply in_app_iff; simpl; auto|]. split; [lia|auto].
        - intros i j x y X Y N0.
          destruct (Nat.lt_ge_cases i (length (chunks s))) as [Li|Li], (Nat.lt_ge_cases j (length (chunks s))) as [Lj|Lj].
          + rewrite nth_error_app1 in X, Y by auto. eapply V3; eauto.
          + rewrite nth_error_app1 in X by auto. rewrite nth_error_app2 in Y by auto.
            destruct (j - length (chunks s))%nat as [|[|]]; try discriminate. injection Y as <-.
            apply nth_error_In in X. specialize (FR _ X). lia.
          + rewrite nth_error_app2 in X by auto. rewrite nth_error_app1 in Y by auto.
            destruct (i - length (chunks s))%nat as [|[|]]; try discriminate. injection X as <-.
            apply nth_error_In in Y. specialize (FR _ Y). lia.
          + rewrite nth_error_app2 in X, Y by auto.
            assert (i - length (chunks s) < 1)%nat by (change 1%nat with (length [a]); apply nth_error_Some; congruence).
            assert (j - length (chunks s) < 1)%nat by (change 1%nat with (length [a]); apply nth_error_Some; congruence).
            lia.
        - intros x. rewrite in_app_iff, V4. unfold guards in G. destruct (protect c) eqn:P.
          + pose proof (walk_in c a ZP _ _ _ G) as GI. rewrite GI. split.
            * intros [(k & -> & K)|(_ & b & k & B & K)]; split; auto; [exists a, k|exists b, k];
                (split; [apply in_app_iff; simpl; auto|auto]).
            * intros (_ & b & k & B & K). apply in_app_iff in B as [B|[<-|[]]]; [right|left; eauto].
              split; auto. exists b, k. auto.
          + injection G as <-. simpl. split; [intros [[]|[X _]]; discriminate|intros [X _]; discriminate]. }
      destruct (avail s1) as [|b l1] eqn:A1; [discriminate|].
      eapply (take_inv c s1); [destruct s1; exact V|exact A1|]. injection E as <- <-. reflexivity.
    + injection E as <- <-. eapply (take_inv c s); [destruct s; exact IH|exact A|reflexivity].
  - destruct IH as [V1 V2 V3 V4]. unfold free. pose proof (drop_perm b (live s) H) as DP.
    assert (PP : Permutation (live s ++ avail s) (drop b (live s) ++ b :: avail s)).
    { eapply perm_trans; [apply Permutation_app_tail, Permutation_sym, DP|]. simpl. apply Permutation_middle. }
    split; cbn [chunks avail prot live]; auto.
    + eapply Permutation_NoDup; eauto.
    + intros x X. apply V2. eapply Permutation_in; [apply Permutation_sym, PP|auto].
Qed.

(** A stack is aligned: the check at thread start never fails. *)
Theorem stack_aligned : forall fuel c l s b, 0 < ss c -> run fuel c l s -> In b (live s) -> aligned c b = true.
Proof.
  intros fuel c l s b Z R B. pose proof (run_inv fuel c Z l s R) as V.
  destruct (v_stack c s V b) as (a & k & _ & -> & _); [apply in_app_iff; auto|].
  destruct (aligned_start c a Z) as [q Q]. unfold aligned. apply N.eqb_eq. unfold first, step.
  destruct (protect c).
  - replace (a + (align c a + ss c) + k * (2 * ss c)) with ((q + 1 + 2 * k) * ss c) by nia. apply N.mod_mul. lia.
  - replace (a + align c a + k * ss c) with ((q + k) * ss c) by nia. apply N.mod_mul. lia.
Qed.
(** Wherever a thread is on its stack, it finds its own data and no other thread's. *)
Theorem stack_own_data : forall fuel c l s b x, 0 < ss c -> run fuel c l s -> In b (live s) -> on c b x ->
  own_data c x = b.
Proof.
  intros fuel c l s b x Z R B O. pose proof (stack_aligned _ _ _ _ _ Z R B) as A. unfold aligned in A.
  apply N.eqb_eq in A. unfold own_data, on in *. pose proof (N.div_mod b (ss c) ltac:(lia)) as D.
  assert (x / ss c = b / ss c); [|nia]. symmetry. apply (N.div_unique x (ss c) (b / ss c) (x - b)); lia.
Qed.
(** Stacks in use share no byte, and a stack is in use once. *)
Theorem stacks_disjoint : forall fuel c l s b b' x, 0 < ss c -> run fuel c l s ->
  NoDup (live s) /\ (In b (live s) -> In b' (live s) -> on c b x -> on c b' x -> b = b').
Proof.
  intros fuel c l s b b' x Z R. split.
  - pose proof (v_nodup c s (run_inv fuel c Z l s R)) as N0. clear - N0. induction (live s) as [|y t IH]; simpl in *; constructor;
      inversion N0; subst; auto. intros H. apply H1. apply in_app_iff. auto.
  - intros B B' O O'. rewrite <- (stack_own_data _ _ _ _ _ _ Z R B O). eapply stack_own_data; eauto.
Qed.
(** A stack lies in memory that was mapped, and no byte of it is protected. *)
Theorem stack_usable : forall fuel c l s b, 0 < ss c -> run fuel c l s -> In b (live s) ->
  (exists a, In a (chunks s) /\ a <= b /\ b + ss c <= a + size c) /\
  forall g x, In g (prot s) -> on c g x -> ~ on c b x.
Proof.
  intros fuel c l s b Z R B. pose proof (run_inv fuel c Z l s R) as V.
  destruct (v_stack c s V b) as (a & k & A & E & K); [apply in_app_iff; auto|].
  pose proof (stack_in_chunk c a k Z K) as SC. split.
  - exists a. split; auto. lia.
  - intros g x G Og Ob. apply (v_prot c s V) in G as (P & a' & k' & A' & E' & K').
    destruct (sep_in c s a a' V A A') as [->|SP].
    + unfold first, step, on in *. rewrite P in *.
      assert (k = k' \/ k < k' \/ k' < k) as [->|[L|L]] by lia; nia.
    + unfold first, step, size, on in *. rewrite P in *. lia.
Qed.
(** With protection, what lies below a stack is protected: running over the end of the stack is noticed. *)
Theorem stack_guarded : forall fuel c l s b, 0 < ss c -> protect c = true -> run fuel c l s -> In b (live s) ->
  In (b - ss c) (prot s) /\ ss c <= b.
Proof.
  intros fuel c l s b Z P R B. pose proof (run_inv fuel c Z l s R) as V.
  destruct (v_stack c s V b) as (a & k & A & E & K); [apply in_app_iff; auto|].
  unfold first, step in *. rewrite P in *. split; [|lia]. apply (v_prot c s V). split; auto. exists a, k.
  unfold step. rewrite P. split; auto. split; lia.
Qed.
(** A new thread gets a stack, if a chunk has at least two stacks. *)
Theorem stack_alloc_partial : forall c a s, 0 < ss c -> 2 * ss c <= chunk_size c ->
  exists fuel s' b, alloc fuel c a s = Ok s' b /\ In b (live s').
Proof.
  intros c a s Z CS. pose proof (step_pos c Z) as ZP.
  assert (F : exists fuel, size c < N.of_nat fuel * step c).
  { exists (S (N.to_nat (size c))). nia. }
  destruct F as [fuel F]. exists (S fuel). unfold alloc.
  destruct (walk_ends c a ZP fuel (first c a)) as [w W]; [lia|].
  destruct (walk_ends c a ZP fuel (align c a)) as [g G]; [lia|].
  assert (G' : exists g, guards (S fuel) c a = Some g) by (unfold guards; destruct (protect c); eauto).
  destruct G' as [g' G']. unfold stacks. rewrite W, G'.
  destruct (avail s) as [|b t].
  - assert (In (a + first c a) w).
    { apply (walk_in c a ZP _ _ _ W). exists 0. split; [lia|].
      assert (align c a < ss c).
      { unfold align. destruct (N.eqb_spec (a mod ss c) 0); [lia|].
        apply N.sub_lt; [|apply N.neq_0_lt_0; assumption]. apply N.lt_le_incl, N.mod_lt. lia. }
      unfold first, step, size. destruct (protect c); lia. }
    cbn [avail]. destruct (rev w) as [|b t] eqn:RW.
    + apply in_rev in H. rewrite RW in H. destruct H.
    + do 2 eexists. split; [reflexivity|]. simpl. auto.
  - do 2 eexists. split; [reflexivity|]. simpl. auto.
Qed.
(** Otherwise not: a chunk of one stack holds none. *)
Theorem stack_alloc_refuted : exists c a, c = init 4096 (Some 4096) false /\ a mod 4096 = 0 /\ forall fuel, alloc (S fuel) c a st0 = Undefined.
Proof. exists (init 4096 (Some 4096) false), 8192. split; [reflexivity|]. split; [reflexivity|]. intros fuel. reflexivity. Qed.
(** The default chunk size is enough, whatever the stack size. *)
Theorem stack_default : forall n p, 0 < n -> let c := init n None p in
  n <= ss c /\ ss c mod 4096 = 0 /\ 0 < ss c /\ 2 * ss c <= chunk_size c.
Proof.
  intros n p Z. unfold init. cbn [ss chunk_size]. pose proof (N.div_mod n 4096 ltac:(lia)) as D.
  pose proof (N.mod_lt n 4096 ltac:(lia)).
  destruct (N.eqb_spec (n mod 4096) 0) as [E|E].
  - split; [lia|]. split; [exact E|lia].
  - split; [lia|]. split; [|lia].
    replace (n + (4096 - n mod 4096)) with ((n / 4096 + 1) * 4096) by lia. apply N.mod_mul. lia.
Qed.

(** *** Examples *)
Definition c1 := init 10000 None true.
(** Two threads start, one ends and another starts in its place. *)
Example ex_run : exists s b1 b2, run 20 c1 ((([] ++ [Alloc 4096]) ++ [Alloc 0]) ++ [Free b1] ) s /\
  live s = [b2] /\ avail s <> [] /\ In (b2 - 12288) (prot s).
Proof.
  eexists _, _, _. split.
  - eapply run_free.
    + eapply run_alloc; [eapply run_alloc; [apply run_nil|intros _; split; [reflexivity|intros ? []]|vm_compute; reflexivity]|intros X; discriminate X|vm_compute; reflexivity].
    + simpl. left. reflexivity.
  - split; [vm_compute; reflexivity|]. split; [discriminate|]. vm_compute. tauto.
Qed.

Print Assumptions stack_aligned.
Print Assumptions stack_own_data.
Print Assumptions stacks_disjoint.
Print Assumptions stack_usable.
Print Assumptions stack_guarded.
Print Assumptions stack_alloc_partial.
Print Assumptions stack_alloc_refuted.
Print Assumptions stack_default.
