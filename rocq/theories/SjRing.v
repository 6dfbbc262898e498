(* The ring behaves as a list while it is not full; each call of the NIC comes to an end. *)
From Coq Require Import List ZArith Bool Arith Lia Permutation.
From Verif Require Import PtModel PtProp SjModel SjSpec SjProof SjOrder.
Import ListNotations.
Local Open Scope nat_scope.

(* ---------- the ring ---------- *)

Record rep (n : nat) (r : ring) (l : list (Z * nmsg)) : Prop := {
  p_slots : length (r_slots r) = n;
  p_begin : r_begin r < n;
  p_len : length l < n;
  p_end : r_end r = (r_begin r + length l) mod n;
  p_get : forall i, i < length l -> nth ((r_begin r + i) mod n) (r_slots r) None = nth_error l i }.

Lemma mod_inj : forall n a b, a < b -> b - a < n -> a mod n <> b mod n.
Proof.
  intros n a b H L E. assert (n <> 0) as N by lia.
  pose proof (Nat.div_mod a n N) as A. pose proof (Nat.div_mod b n N) as B. rewrite E in A.
  destruct (Nat.le_gt_cases (b / n) (a / n)) as [Q|Q].
  - pose proof (Nat.mul_le_mono_l _ _ n Q). lia.
  - assert (n * S (a / n) <= n * (b / n)) as M by (apply Nat.mul_le_mono_l; exact Q). rewrite Nat.mul_succ_r in M. lia.
Qed.
Lemma wrap_mod : forall n r i, length (r_slots r) = n -> i < n -> wrap r i = S i mod n.
Proof.
  intros n r i L H. unfold wrap. rewrite L. destruct (Nat.eqb_spec (S i) n) as [->|E].
  - rewrite Nat.mod_same by lia. reflexivity.
  - rewrite Nat.mod_small by lia. reflexivity.
Qed.
Lemma mod_S : forall n a, n <> 0 -> S (a mod n) mod n = S a mod n.
Proof. intros n a N. exact (Nat.add_mod_idemp_r 1 a n N). Qed.

Lemma rep_new : forall n, 0 < n -> rep n (ring_new n) [].
Proof.
  intros n N. split; cbn; try lia; try apply repeat_length. rewrite Nat.mod_small by lia. reflexivity.
Qed.
Lemma rep_empty : forall n r l, rep n r l -> (r_begin r =? r_end r) = match l with [] => true | _ => false end.
Proof.
  intros n r l []. destruct l as [|e l]; cbn [length] in *.
  - rewrite Nat.add_0_r, Nat.mod_small in p_end0 by lia. apply Nat.eqb_eq. auto.
  - apply Nat.eqb_neq. rewrite p_end0. intro E.
    apply (mod_inj n (r_begin r) (r_begin r + S (length l))); [lia|lia|].
    rewrite <- E. apply Nat.mod_small. exact p_begin0.
Qed.
Lemma rep_top : forall n r e l, rep n r (e :: l) -> ring_top r = Some e.
Proof.
  intros n r e l []. unfold ring_top. specialize (p_get0 0 ltac:(cbn; lia)).
  rewrite Nat.add_0_r, Nat.mod_small in p_get0 by lia. exact p_get0.
Qed.
Lemma rep_pop : forall n r e l, rep n r (e :: l) -> rep n (ring_pop r) l.
Proof.
  intros n r e l []. cbn [length] in *. assert (n <> 0) as N by lia. split; cbn [ring_pop r_begin r_end r_slots]; try lia.
  - rewrite (wrap_mod n r _ p_slots0 p_begin0). apply Nat.mod_upper_bound. exact N.
  - rewrite (wrap_mod n r _ p_slots0 p_begin0), p_end0. rewrite Nat.add_mod_idemp_l by exact N. f_equal. lia.
  - intros i I. rewrite (wrap_mod n r _ p_slots0 p_begin0), Nat.add_mod_idemp_l by exact N.
    replace (S (r_begin r) + i) with (r_begin r + S i) by lia. apply (p_get0 (S i)). lia.
Qed.
(* Writing behind the last entry *)
Lemma put_slots : forall n r l x, rep n r l -> forall i, i < length l ->
  nth ((r_begin r + i) mod n) (set_nth (r_slots r) (r_end r) x) None = nth_error l i.
Proof.
  intros n r l x [] i I. assert (n <> 0) as N by lia. rewrite nth_set_nth.
  - destruct (Nat.eqb_spec ((r_begin r + i) mod n) (r_end r)) as [E|_]; [|apply p_get0; exact I].
    exfalso. rewrite p_end0 in E. revert E. apply mod_inj; lia.
  - rewrite p_slots0, p_end0. apply Nat.mod_upper_bound. exact N.
Qed.
Lemma put_end : forall n r l x, rep n r l ->
  nth ((r_begin r + length l) mod n) (set_nth (r_slots r) (r_end r) x) None = x.
Proof.
  intros n r l x []. rewrite <- p_end0, nth_set_nth, Nat.eqb_refl; [reflexivity|].
  rewrite p_slots0, p_end0. apply Nat.mod_upper_bound. lia.
Qed.
Lemma rep_insert : forall n r l e, rep n r l -> S (length l) < n -> rep n (ring_put (Some e) r) (l ++ [e]).
Proof.
  intros n r l e P L. pose proof (put_slots n r l (Some e) P) as G. pose proof (put_end n r l (Some e) P) as GE.
  destruct P. assert (n <> 0) as N by lia.
  assert (RE : r_end r < n) by (rewrite p_end0; apply Nat.mod_upper_bound; exact N).
  split; cbn [ring_put r_begin r_end r_slots].
  - rewrite set_nth_length. exact p_slots0.
  - exact p_begin0.
  - rewrite app_length. cbn. lia.
  - rewrite (wrap_mod n r _ p_slots0 RE), p_end0, mod_S by exact N. rewrite app_length. cbn [length]. f_equal. lia.
  - intros i I. rewrite app_length in I. cbn [length] in I. destruct (Nat.eq_dec i (length l)) as [->|].
    + rewrite nth_error_app2, Nat.sub_diag by lia. exact GE.
    + rewrite nth_error_app1 by lia. apply G. lia.
Qed.
Lemma rep_adjust : forall n r o m l off, rep n r ((o, m) :: l) -> rep n (ring_adjust off r) (l ++ [(off, m)]).
Proof.
  intros n r o m l off P. unfold ring_adjust. rewrite (rep_top _ _ _ _ P).
  pose proof (put_slots n r _ (Some (off, m)) P) as G. pose proof (put_end n r _ (Some (off, m)) P) as GE.
  destruct P. cbn [length] in *. assert (n <> 0) as N by lia.
  assert (RE : r_end r < n) by (rewrite p_end0; apply Nat.mod_upper_bound; exact N).
  assert (W : wrap (ring_put (Some (off, m)) r) (r_begin r) = S (r_begin r) mod n).
  { apply wrap_mod; [|exact p_begin0]. cbn. rewrite set_nth_length. exact p_slots0. }
  split; unfold ring_pop; cbn [r_begin r_end r_slots]; cbn [ring_put r_begin]; try rewrite W.
  - cbn [r_slots ring_put]. rewrite set_nth_length. exact p_slots0.
  - apply Nat.mod_upper_bound. exact N.
  - rewrite app_length. cbn. lia.
  - cbn [r_end ring_put]. rewrite (wrap_mod n r _ p_slots0 RE), p_end0, mod_S, Nat.add_mod_idemp_l by exact N.
    rewrite app_length. cbn [length]. f_equal. lia.
  - intros i I. rewrite app_length in I. cbn [length] in I. cbn [r_slots ring_put].
    rewrite Nat.add_mod_idemp_l by exact N. replace (S (r_begin r) + i) with (r_begin r + S i) by lia.
    destruct (Nat.eq_dec i (length l)) as [->|].
    + rewrite nth_error_app2, Nat.sub_diag by lia. exact GE.
    + rewrite nth_error_app1 by lia. apply (G (S i)). lia.
Qed.

(* ---------- queues that behave as a list ---------- *)

Record like (back : bool) {Q} (I : iqueue Q) (room : nat -> Prop) (R : Q -> list (Z * nmsg) -> Prop) : Prop := {
  l_empty : forall q l, R q l -> q_empty I q = match l with [] => true | _ => false end;
  l_top : forall q e l, R q (e :: l) -> q_top I q = Some e;
  l_pop : forall q e l, R q (e :: l) -> R (q_pop I q) l;
  l_adjust : forall q o m l off, R q ((o, m) :: l) -> R (q_adjust I off q) (if back then l ++ [(off, m)] else (off, m) :: l);
  l_insert : forall q l off m, R q l -> room (S (length l)) -> R (q_insert I off m q) (l ++ [(off, m)]) }.

Lemma like_fifo : like false fifo_q (fun _ => True) eq.
Proof. split; intros; subst; try reflexivity. Qed.
Lemma like_ring : forall n, like true ring_q (fun k => k < n) (rep n).
Proof.
  intro n. split; cbn [q_empty q_top q_pop q_adjust q_insert ring_q]; intros.
  - apply (rep_empty n). assumption.
  - eapply rep_top. eassumption.
  - eapply rep_pop. eassumption.
  - eapply rep_adjust. eassumption.
  - apply rep_insert; assumption.
Qed.

Definition alike {Q} (R : Q -> list (Z * nmsg) -> Prop) (s : nic Q) (t : nic (list (Z * nmsg))) : Prop :=
  R (ni_q s) (ni_q t) /\ ni_buf s = ni_buf t /\ ni_next s = ni_next t /\ ni_copying s = ni_copying t.

Section Like.
Variable back : bool.
Context {Q : Type}.
Variable I : iqueue Q.
Variable room : nat -> Prop.
Variable R : Q -> list (Z * nmsg) -> Prop.
Hypothesis LK : like back I room R.
Variable c : ncfg.
Variables buf0 next0 : Z.
Variable q0 : Q.
Hypothesis NEW : R q0 [].
Hypothesis MTU : (0 < c_mtu c)%Z.
Hypothesis BUF : (0 <= buf0)%Z.

(* There has always been room. *)
Definition roomy (h : list nobs) : Prop := forall newer older, h = newer ++ older -> room (length (unfinished older)).

Lemma like_turn : forall s t, alike R s t ->
  match copy_turn I c s, copy_turn (list_q back) c t with
  | Stop s', Stop t' => alike R s' t'
  | Packet p s', Packet p' t' => p = p' /\ alike R s' t'
  | Abort, Abort => True
  | _, _ => False
  end.
Proof.
  intros s t (A & B & C & D). unfold copy_turn. rewrite (l_empty _ _ _ _ LK _ _ A).
  cbn [q_empty q_top q_pop q_adjust list_q].
  destruct (ni_q t) as [|[off m] r] eqn:QE.
  - split; [exact A|]. cbn. auto.
  - rewrite (l_top _ _ _ _ LK _ _ _ A). rewrite B, C. destruct (_ <=? _)%Z.
    + destruct (inject c off m (ni_next t)) as [[p nx]|]; [|exact Logic.I]. split; [reflexivity|].
      repeat split; cbn; try reflexivity. destruct (_ =? _)%Z.
      * eapply (l_pop _ _ _ _ LK). exact A.
      * exact (l_adjust _ _ _ _ LK _ _ _ _ (off + Z.min (n_len m - off) (c_mtu c))%Z A).
    + repeat split; cbn; auto.
Qed.

Lemma roomy_tail : forall x h, roomy (x :: h) -> roomy h.
Proof. intros x h H newer older E. apply (H (x :: newer) older). rewrite E. reflexivity. Qed.

Lemma like_run : forall h s, nrun I c q0 buf0 next0 h s -> distinct h -> roomy h ->
  exists t, nrun (list_q back) c [] buf0 next0 h t /\ alike R s t.
Proof.
  intros h s RN. induction RN as [|h s m RN IH NC L|h s n RN IH NC N|h s s' RN IH NC T|h s p s' RN IH NC T]; intros D RM.
  - eexists. split; [constructor|]. repeat split. exact NEW.
  - pose proof (distinct_tail _ _ D) as D'. destruct (IH D' (roomy_tail _ _ RM)) as (t & RT & A & B & C & E).
    eexists. split; [apply nrun_send; [exact RT|congruence|exact L]|]. repeat split; cbn; auto.
    apply (l_insert _ _ _ _ LK); [exact A|].
    pose proof (run_inv back c buf0 next0 MTU BUF _ _ RT D') as V.
    specialize (RM [] _ eq_refl). unfold unfinished in RM. cbn [sent injected] in RM.
    rewrite filter_app, app_length in RM. fold (unfinished h) in RM.
    rewrite (Permutation_length (unfinished_queue _ _ _ _ V D')), map_length in RM. cbn [filter] in RM.
    replace (existsb np_tail (of_msg m (injected h))) with false in RM.
    + cbn [negb length] in RM. rewrite Nat.add_1_r in RM. exact RM.
    + symmetry. apply not_true_is_false. intro X. apply existsb_exists in X as [p [P _]].
      apply filter_In in P as [P1 P2]. apply Nat.eqb_eq in P2. destruct (i_known _ _ _ _ V p P1) as [m' [M1 M2]].
      unfold distinct in D. cbn in D. rewrite map_app in D. apply NoDup_remove_2 in D. rewrite app_nil_r in D.
      apply D. rewrite <- P2, <- M2. apply in_map. exact M1.
  - destruct (IH D (roomy_tail _ _ RM)) as (t & RT & A & B & C & E).
    eexists. split; [apply nrun_credit; [exact RT|congruence|exact N]|]. repeat split; cbn; auto. congruence.
  - destruct (IH D RM) as (t & RT & A). pose proof (like_turn _ _ A) as W. rewrite T in W.
    destruct (copy_turn (list_q back) c t) as [t'|? ?|] eqn:TT; try contradiction.
    exists t'. split; [|exact W]. apply (nrun_stop _ _ _ _ _ h t); auto. destruct A as (_ & _ & _ & E). congruence.
  - destruct (IH (distinct_tail _ _ D) (roomy_tail _ _ RM)) as (t & RT & A). pose proof (like_turn _ _ A) as W. rewrite T in W.
    destruct (copy_turn (list_q back) c t) as [?|p' t'|] eqn:TT; try contradiction. destruct W as [<- W].
    exists t'. split; [|exact W]. apply (nrun_packet _ _ _ _ _ h t); auto. destruct A as (_ & _ & _ & E). congruence.
Qed.

(* ---------- every call comes to an end ---------- *)

Definition todo_bytes (l : list (Z * nmsg)) : nat :=
  fold_right (fun e n => S (Z.to_nat (n_len (snd e) - fst e)) + n) 0 l.
Lemma todo_app : forall x y, todo_bytes (x ++ y) = todo_bytes x + todo_bytes y.
Proof. induction x as [|e x IH]; intro y; [reflexivity|]. cbn [todo_bytes fold_right app]. fold (todo_bytes (x ++ y)). fold (todo_bytes x). rewrite IH. lia. Qed.

Lemma like_ends : forall k h s t, todo_bytes (ni_q t) <= k -> nrun I c q0 buf0 next0 h s -> alike R s t ->
  ni_copying s = true -> (forall off m, In (off, m) (ni_q t) -> (pkt_qos c m < c_levels c)%Z) ->
  exists ps s', nrun I c q0 buf0 next0 (map Injected ps ++ h) s' /\ ni_copying s' = false.
Proof.
  induction k as [|k IH]; intros h s t K RN A CP QS; pose proof (like_turn _ _ A) as W.
  - destruct (ni_q t) as [|e r] eqn:QE; [|cbn in K; lia].
    assert (TT : exists t', copy_turn (list_q back) c t = Stop t' /\ ni_copying t' = false).
    { unfold copy_turn. cbn [q_empty list_q]. rewrite QE. eexists. split; reflexivity. }
    destruct TT as [t' [TT TC]]. rewrite TT in W.
    destruct (copy_turn I c s) as [s'|? ?|] eqn:T; try contradiction.
    exists [], s'. split; [apply (nrun_stop _ _ _ _ _ h s); assumption|]. destruct W as (_ & _ & _ & E). congruence.
  - destruct (copy_turn (list_q back) c t) as [t'|p t'|] eqn:TT.
    + destruct (copy_turn I c s) as [s'|? ?|] eqn:T; try contradiction. apply turn_stop in TT as [-> _].
      exists [], s'. split; [apply (nrun_stop _ _ _ _ _ h s); assumption|]. destruct W as (_ & _ & _ & E). exact E.
    + destruct (copy_turn I c s) as [?|p' s'|] eqn:T; try contradiction. destruct W as [<- W].
      assert (CP' : ni_copying s' = true).
      { destruct W as (_ & _ & _ & ->). apply turn_packet in TT as (off & m & r & QE & X). cbv zeta in X.
        destruct X as (_ & _ & _ & _ & _ & _ & ->). reflexivity. }
      destruct (IH (Injected p' :: h) s' t') as (ps & s2 & R2 & C2).
      * apply turn_packet in TT as (off & m & r & QE & X). cbv zeta in X. destruct X as (_ & _ & _ & _ & _ & _ & ->).
        cbn [ni_q]. rewrite QE in K. cbn [todo_bytes fold_right fst snd] in K. fold (todo_bytes r) in K.
        destruct (Z.eqb_spec (Z.min (n_len m - off) (c_mtu c)) (n_len m - off)) as [E|E]; [lia|].
        assert (S (Z.to_nat (n_len m - (off + Z.min (n_len m - off) (c_mtu c)))) <= Z.to_nat (n_len m - off)) by lia.
        destruct back; [rewrite todo_app|]; cbn [todo_bytes fold_right fst snd]; fold (todo_bytes r); lia.
      * apply (nrun_packet _ _ _ _ _ h s); assumption.
      * exact W.
      * exact CP'.
      * intros o x X. apply turn_packet in TT as (off & m & r & QE & Y). cbv zeta in Y. destruct Y as (_ & _ & _ & QL & _ & _ & ->).
        cbn [ni_q] in X. rewrite QE in QS. destruct (_ =? _)%Z; [apply (QS o); right; exact X|].
        destruct back.
        -- apply in_app_or in X as [X|[X|[]]]; [apply (QS o); right; exact X|]. inversion X; subst. exact QL.
        -- destruct X as [X|X]; [|apply (QS o); right; exact X]. inversion X; subst. exact QL.
      * exists (ps ++ [p']), s2. split; [|exact C2]. rewrite map_app, <- app_assoc. exact R2.
    + unfold copy_turn in TT. cbn [q_empty q_top q_pop q_adjust list_q] in TT.
      destruct (ni_q t) as [|[off m] r] eqn:QE; [discriminate|].
      destruct (_ <=? _)%Z; [|discriminate]. unfold inject in TT. specialize (QS off m (or_introl eq_refl)).
      destruct (Z.leb_spec (c_levels c) (pkt_qos c m)); [lia|discriminate].
Qed.
End Like.
