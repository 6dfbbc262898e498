From Coq Require Import List NArith Bool Arith Lia Permutation Sorted.
From Coq Require Import ZifyBool ZifyNat ZifyN.
From Verif Require Import EvModel EvSpec.
Import ListNotations.
Local Open Scope N_scope.

(** * The key order *)

Lemma keylt_earlier a b : keylt a b = true <-> earlier a b.
Proof.
  unfold keylt, earlier. destruct a as [t l s], b as [t' l' s']; simpl.
  destruct (t =? t') eqn:Et; simpl.
  - apply N.eqb_eq in Et. destruct (l =? l') eqn:El.
    + apply N.eqb_eq in El. rewrite N.ltb_lt. split; intros H; [right; split; [lia|right; lia] | lia].
    + apply N.eqb_neq in El. rewrite N.ltb_lt. split; intros H; [right; split; [lia|left; lia]|lia].
  - apply N.eqb_neq in Et. rewrite N.ltb_lt. split; intros H; [left; lia|lia].
Qed.

Lemma earlier_irrefl a : ~ earlier a a.
Proof. unfold earlier; lia. Qed.

Lemma earlier_trans a b c : earlier a b -> earlier b c -> earlier a c.
Proof. unfold earlier; lia. Qed.

Lemma earlier_total a b : earlier a b \/ a = b \/ earlier b a.
Proof.
  unfold earlier. destruct a as [t l s], b as [t' l' s']; simpl.
  destruct (N.lt_trichotomy t t') as [H|[H|H]]; [left;lia| |right;right;lia].
  destruct (N.lt_trichotomy l l') as [H'|[H'|H']]; [left;lia| |right;right;lia].
  destruct (N.lt_trichotomy s s') as [H''|[H''|H'']]; [left;lia| |right;right;lia].
  subst; auto.
Qed.

Lemma keylt_false_eq a b : keylt a b = false -> keylt b a = false -> a = b.
Proof.
  intros H1 H2. destruct (earlier_total a b) as [H|[H|H]]; auto;
  apply keylt_earlier in H; congruence.
Qed.

Lemma keylt_irrefl a : keylt a a = false.
Proof. destruct (keylt a a) eqn:E; auto. apply keylt_earlier in E. now apply earlier_irrefl in E. Qed.

Lemma earlier_time a b : earlier a b -> k_time a <= k_time b.
Proof. unfold earlier; lia. Qed.

Section Q.
Context {P : Type}.
Notation event := (event P).

Definition elt (a b : event) : Prop := earlier (e_key a) (e_key b).
Definition qsorted (q : list event) := StronglySorted elt q.

Lemma elt_trans a b c : elt a b -> elt b c -> elt a c.
Proof. apply earlier_trans. Qed.

Lemma qclash_false (e : event) q :
  qclash e q = false <-> forall x, In x q -> e_key x <> e_key e.
Proof.
  unfold qclash. split.
  - intros H x Hx Hk.
    assert (existsb (fun x => negb (keylt (e_key e) (e_key x)) && negb (keylt (e_key x) (e_key e))) q = true).
    { apply existsb_exists. exists x. split; auto. rewrite Hk, keylt_irrefl. reflexivity. }
    congruence.
  - intros H. apply not_true_is_false. intros He. apply existsb_exists in He as [x [Hx Hc]].
    apply andb_true_iff in Hc as [H1 H2]. apply negb_true_iff in H1, H2.
    apply (H x Hx). symmetry. now apply keylt_false_eq.
Qed.

Lemma qinsert_In_1 (e : event) q x : In x (qinsert e q) -> x = e \/ In x q.
Proof.
  induction q as [|y r IH]; simpl.
  - intuition.
  - destruct (keylt (e_key e) (e_key y)); [simpl; intuition|].
    destruct (keylt (e_key y) (e_key e)); simpl; intuition.
Qed.

Lemma qinsert_perm (e : event) q : qclash e q = false -> Permutation (qinsert e q) (e :: q).
Proof.
  intros Hc. rewrite qclash_false in Hc.
  induction q as [|y r IH]; simpl; auto.
  destruct (keylt (e_key e) (e_key y)) eqn:E1; auto.
  destruct (keylt (e_key y) (e_key e)) eqn:E2.
  - rewrite IH; [apply perm_swap|]. intros x Hx. apply Hc; simpl; auto.
  - exfalso. apply (Hc y); simpl; auto. symmetry. now apply keylt_false_eq.
Qed.

Lemma qinsert_sorted (e : event) q : qsorted q -> qsorted (qinsert e q).
Proof.
  intros Hs. induction q as [|y r IH]; simpl.
  - constructor; constructor.
  - inversion Hs as [|? ? Hr Hy]; subst.
    destruct (keylt (e_key e) (e_key y)) eqn:E1.
    + apply keylt_earlier in E1. constructor; auto. constructor; auto.
      rewrite Forall_forall in *. intros x Hx. eapply elt_trans; [exact E1|]. now apply Hy.
    + destruct (keylt (e_key y) (e_key e)) eqn:E2.
      * apply keylt_earlier in E2. constructor; [apply IH; exact Hr|]. rewrite Forall_forall in *.
        intros x Hx. apply qinsert_In_1 in Hx as [->|Hx]; auto. 
      * auto.
Qed.

Lemma qinsert_In (e : event) q x :
  qclash e q = false -> (In x (qinsert e q) <-> x = e \/ In x q).
Proof.
  intros Hc. split; [apply qinsert_In_1|]. intros H.
  eapply Permutation_in; [symmetry; apply qinsert_perm; auto|]. simpl. intuition.
Qed.

Lemma sorted_ext (q q' : list event) :
  qsorted q -> qsorted q' -> (forall x, In x q <-> In x q') -> q = q'.
Proof.
  revert q'. induction q as [|a r IH]; intros q' Hs Hs' H.
  - destruct q' as [|b r']; auto. exfalso. apply (proj2 (H b)). simpl; auto.
  - destruct q' as [|b r']; [exfalso; apply (proj1 (H a)); simpl; auto|].
    inversion Hs as [|? ? Hr Ha]; inversion Hs' as [|? ? Hr' Hb]; subst.
    rewrite Forall_forall in Ha, Hb.
    assert (a = b).
    { destruct (proj1 (H a)) as [|Hin]; [simpl;auto|auto|].
      destruct (proj2 (H b)) as [|Hin']; [simpl;auto|auto|].
      exfalso. eapply earlier_irrefl. eapply earlier_trans; [apply (Ha b Hin')|apply (Hb a Hin)]. }
    subst b. f_equal. apply IH; auto. intros x. split; intros Hx.
    + destruct (proj1 (H x)) as [|?]; [simpl;auto| |auto].
      subst x. exfalso. eapply earlier_irrefl. apply (Ha a Hx).
    + destruct (proj2 (H x)) as [|?]; [simpl;auto| |auto].
      subst x. exfalso. eapply earlier_irrefl. apply (Hb a Hx).
Qed.

(** Building the queue from events with pairwise different keys. *)
Lemma build_queue (es q : list event) :
  qsorted q -> NoDup (map e_key (q ++ es)) ->
  qsorted (fold_left (fun q e => qinsert e q) es q) /\
  Permutation (fold_left (fun q e => qinsert e q) es q) (q ++ es).
Proof.
  revert q. induction es as [|e es IH]; intros q Hs Hn; simpl.
  - rewrite app_nil_r. auto.
  - assert (Hc : qclash e q = false).
    { apply qclash_false. intros x Hx Hk. rewrite map_app in Hn. simpl in Hn.
      apply NoDup_remove_2 in Hn. apply Hn. rewrite in_app_iff. left. rewrite <- Hk.
      now apply in_map. }
    assert (Hp := qinsert_perm e q Hc).
    destruct (IH (qinsert e q)) as [H1 H2].
    + now apply qinsert_sorted.
    + eapply Permutation_NoDup; [|exact Hn]. apply Permutation_map.
      rewrite Hp. simpl. symmetry. apply Permutation_middle.
    + split; auto. rewrite H2, Hp. simpl. apply Permutation_middle.
Qed.

Lemma queue_order_irrelevant (es es' : list event) :
  NoDup (map e_key es) -> Permutation es es' ->
  fold_left (fun q e => qinsert e q) es [] = fold_left (fun q e => qinsert e q) es' [].
Proof.
  intros Hn Hp.
  assert (Hn' : NoDup (map e_key es')) by (eapply Permutation_NoDup; [apply Permutation_map; exact Hp|auto]).
  destruct (build_queue es []) as [H1 H2]; [constructor|auto|].
  destruct (build_queue es' []) as [H1' H2']; [constructor|auto|].
  apply sorted_ext; auto. intros x. simpl in *. split; intros Hx.
  - eapply Permutation_in; [symmetry; exact H2'|]. eapply Permutation_in; [exact Hp|].
    eapply Permutation_in; [exact H2|auto].
  - eapply Permutation_in; [symmetry; exact H2|]. eapply Permutation_in; [symmetry; exact Hp|].
    eapply Permutation_in; [exact H2'|auto].
Qed.

Lemma sorted_min (e : event) r x : qsorted (e :: r) -> In x (e :: r) -> x = e \/ elt e x.
Proof.
  intros Hs [->|Hin]; auto. right. inversion Hs as [|? ? ? Ha]; subst.
  rewrite Forall_forall in Ha. auto.
Qed.

Lemma sorted_min_time (e : event) r x : qsorted (e :: r) -> In x (e :: r) -> e_time e <= e_time x.
Proof.
  intros Hs Hx. destruct (sorted_min e r x Hs Hx) as [->|H]; [lia|]. apply earlier_time in H. exact H.
Qed.
End Q.
