(* Proofs about PISCES credits: the handlers one by one, then the network. *)
From Coq Require Import List ZArith Bool Arith Lia Permutation.
From Verif Require Import PtModel PtProp PcModel.
Import ListNotations.
Local Open Scope Z_scope.

(* ---------- sums ---------- *)

Definition sum {A} (f : A -> Z) (l : list A) : Z := fold_right (fun x a => f x + a) 0 l.

Lemma sum_cons : forall A (f : A -> Z) x l, sum f (x :: l) = f x + sum f l.
Proof. reflexivity. Qed.

Lemma sum_app : forall A (f : A -> Z) l m, sum f (l ++ m) = sum f l + sum f m.
Proof. induction l; intro m; cbn [app]; [reflexivity|]. rewrite !sum_cons, IHl. lia. Qed.

Lemma sum_perm : forall A (f : A -> Z) l m, Permutation l m -> sum f l = sum f m.
Proof. intros A f l m P. induction P; rewrite ?sum_cons in *; lia. Qed.

Lemma sum_map : forall A B (h : A -> B) (f : B -> Z) l, sum f (map h l) = sum (fun x => f (h x)) l.
Proof. induction l; cbn [map]; [reflexivity|]. rewrite !sum_cons, IHl. reflexivity. Qed.

Lemma sum_flat_map : forall A B (h : A -> list B) (f : B -> Z) l,
  sum f (flat_map h l) = sum (fun x => sum f (h x)) l.
Proof. induction l; cbn [flat_map]; [reflexivity|]. rewrite sum_app, sum_cons, IHl. reflexivity. Qed.

Lemma sum_ext : forall A (f h : A -> Z) l, (forall x, In x l -> f x = h x) -> sum f l = sum h l.
Proof.
  induction l; intro H; [reflexivity|]. rewrite !sum_cons, IHl by (intros; apply H; right; auto).
  rewrite (H a); [reflexivity|left; reflexivity].
Qed.

Lemma sum_zero : forall A (f : A -> Z) l, (forall x, In x l -> f x = 0) -> sum f l = 0.
Proof.
  induction l; intro H; [reflexivity|]. rewrite sum_cons, IHl by (intros; apply H; right; auto).
  rewrite (H a); [reflexivity|left; reflexivity].
Qed.

Lemma sum_nonneg : forall A (f : A -> Z) l, (forall x, In x l -> 0 <= f x) -> 0 <= sum f l.
Proof.
  induction l; intro H; [reflexivity|]. rewrite sum_cons.
  specialize (H a (or_introl eq_refl)) as H0.
  assert (0 <= sum f l) by (apply IHl; intros; apply H; right; auto). lia.
Qed.

Lemma sum_in_le : forall A (f : A -> Z) l x, (forall x, In x l -> 0 <= f x) -> In x l -> f x <= sum f l.
Proof.
  induction l as [|a l IH]; intros x H I; [destruct I|]. rewrite sum_cons. destruct I as [->|I].
  - assert (0 <= sum f l) by (apply sum_nonneg; intros; apply H; right; auto). lia.
  - specialize (IH x (fun y Y => H y (or_intror Y)) I).
    specialize (H a (or_introl eq_refl)). lia.
Qed.

Lemma perm_remove_at : forall A k (l : list A) x, nth_error l k = Some x -> Permutation l (x :: remove_at k l).
Proof.
  induction k; intros [|y l] x E; cbn in *; try discriminate.
  - injection E as ->. reflexivity.
  - specialize (IHk l x E). rewrite IHk at 1. apply perm_swap.
Qed.

Lemma sum_remove : forall A (f : A -> Z) k l x, nth_error l k = Some x ->
  sum f l = f x + sum f (remove_at k l).
Proof. intros A f k l x E. rewrite (sum_perm _ f _ _ (perm_remove_at _ _ _ _ E)). reflexivity. Qed.

(* ---------- lists of queues ---------- *)

Lemma concat_set : forall (qs : list (list pkt)) s q, (s < length qs)%nat ->
  Permutation (nth s qs [] ++ concat (set_nth qs s q)) (q ++ concat qs).
Proof.
  induction qs as [|a qs IH]; intros s q L; [inversion L|]. destruct s; cbn [set_nth nth concat].
  - rewrite !app_assoc. apply Permutation_app_tail, Permutation_app_comm.
  - cbn in L. specialize (IH s q ltac:(lia)).
    rewrite !app_assoc, (Permutation_app_comm _ a), (Permutation_app_comm q a), <- !app_assoc.
    apply Permutation_app_head, IH.
Qed.

Lemma in_concat_nth : forall (qs : list (list pkt)) x,
  In x (concat qs) <-> exists s, (s < length qs)%nat /\ In x (nth s qs []).
Proof.
  intros qs x. rewrite in_concat. split.
  - intros [q [Q X]]. apply In_nth with (d := []) in Q. destruct Q as [s [L E]]. exists s. subst q. auto.
  - intros [s [L X]]. exists (nth s qs []). split; [apply nth_In, L|exact X].
Qed.

(* ---------- pop ---------- *)

Lemma u32_small : forall z, 0 <= z < 2 ^ 31 -> u32 z = z.
Proof. intros z H. unfold u32. apply Z.mod_small. lia. Qed.

Lemma pop_some : forall c q p r, pop c q = Some (p, r) ->
  p_bytes p <= u32 c /\ Permutation q (p :: r).
Proof.
  induction q as [|x q IH]; intros p r E; cbn [pop] in E; [discriminate|].
  destruct (Z.leb_spec (p_bytes x) (u32 c)).
  - injection E as -> ->. auto.
  - destruct (pop c q) as [[y r']|] eqn:P; [|discriminate]. injection E as -> <-.
    destruct (IH p r' eq_refl) as [A B]. split; [exact A|]. rewrite B. apply perm_swap.
Qed.

Lemma pop_none : forall c q, pop c q = None -> forall x, In x q -> u32 c < p_bytes x.
Proof.
  induction q as [|y q IH]; intros E x I; [destruct I|]. cbn [pop] in E.
  destruct (Z.leb_spec (p_bytes y) (u32 c)); [discriminate|].
  destruct (pop c q) as [[z r]|]; [discriminate|]. destruct I as [<-|I]; auto.
Qed.

(* ---------- what a handler must do ---------- *)

Definition where_ (nvc : nat) (u : bool) (p : pkt) : nat := slot nvc (p_out p) (leave_vc u p).
Definition in_slot (nvc : nat) (u : bool) (s : nat) (p : pkt) : Z :=
  if Nat.eqb (where_ nvc u p) s then p_bytes p else 0.

(* The credits added to slot s. *)
Definition cin_at (cin : option (nat * Z)) (s : nat) : Z :=
  match cin with Some (s0, n) => if (s =? s0)%nat then n else 0 | None => 0 end.

(* Component st received the packets I, and the credits cin, and became st' sending O. *)
Record acts (nvc : nat) (u : bool) (st : comp) (I : list pkt) (cin : option (nat * Z))
  (st' : comp) (O : list pkt) : Prop := {
  a_lenc : length (credits st') = length (credits st);
  a_lenq : length (queues st') = length (queues st);
  a_perm : Permutation (O ++ concat (queues st')) (I ++ concat (queues st));
  a_cred : forall s, credit_of st' s = credit_of st s + cin_at cin s - sum (in_slot nvc u s) O;
  a_place : forall s x, In x (queue_of st' s) -> where_ nvc u x = s;
  a_pos : forall s, 0 <= credit_of st' s;
  a_live : forall s, queue_of st' s = [] \/ (exists o, In o O /\ where_ nvc u o = s) \/
    (exists x, In x (queue_of st' s) /\ u32 (credit_of st' s) < p_bytes x) \/
    (queue_of st' s = queue_of st s /\ forall n, cin <> Some (s, n))
}.

Record fine (nvc : nat) (u : bool) (st : comp) : Prop := {
  f_len : length (credits st) = length (queues st);
  f_place : forall s x, In x (queue_of st s) -> where_ nvc u x = s;
  f_pos : forall s, 0 <= credit_of st s
}.

Lemma queue_set_credit : forall st s c s', queue_of (set_credit st s c) s' = queue_of st s'.
Proof. reflexivity. Qed.
Lemma credit_set_queue : forall st s q s', credit_of (set_queue st s q) s' = credit_of st s'.
Proof. reflexivity. Qed.
Lemma credit_set : forall st s c s', (s < length (credits st))%nat ->
  credit_of (set_credit st s c) s' = if (s' =? s)%nat then c else credit_of st s'.
Proof. intros. unfold credit_of, set_credit. cbn. rewrite nth_set_nth by auto. reflexivity. Qed.
Lemma queue_set : forall st s q s', (s < length (queues st))%nat ->
  queue_of (set_queue st s q) s' = if (s' =? s)%nat then q else queue_of st s'.
Proof. intros. unfold queue_of, set_queue. cbn. rewrite nth_set_nth by auto. reflexivity. Qed.

Lemma u32_le : forall c, 0 <= c -> u32 c <= c.
Proof. intros c H. unfold u32. apply Z.mod_le; lia. Qed.

(* The two payload handlers do the same at the packet's slot. *)
Definition take_payload (st : comp) (s : nat) (p : pkt) : comp * list pkt :=
  let c := credit_of st s in
  if p_bytes p <=? u32 c then (set_credit st s (c - p_bytes p), [p])
  else (set_queue st s (queue_of st s ++ [p]), []).

Lemma take_payload_acts : forall nvc u st p st' O, fine nvc u st ->
  (where_ nvc u p < length (queues st))%nat ->
  take_payload st (where_ nvc u p) p = (st', O) -> acts nvc u st [p] None st' O.
Proof.
  intros nvc u st p st' O F L E. unfold take_payload in E. set (s0 := where_ nvc u p) in *.
  pose proof (f_len _ _ _ F) as FL. pose proof (f_pos _ _ _ F) as FP.
  destruct (Z.leb_spec (p_bytes p) (u32 (credit_of st s0))) as [LE|GT]; injection E as <- <-.
  - pose proof (u32_le _ (FP s0)). split.
    + cbn. apply set_nth_length.
    + reflexivity.
    + cbn. reflexivity.
    + intro s. rewrite credit_set by lia. rewrite sum_cons. cbn [sum fold_right]. unfold in_slot, cin_at.
      fold s0. rewrite (Nat.eqb_sym s s0). destruct (Nat.eqb_spec s0 s) as [<-|]; lia.
    + intros s x X. apply (f_place _ _ _ F s x X).
    + intro s. rewrite credit_set by lia. specialize (FP s). destruct (Nat.eqb_spec s s0); lia.
    + intro s. right; right; right. split; [reflexivity|discriminate].
  - split.
    + reflexivity.
    + cbn. apply set_nth_length.
    + cbn [app]. unfold set_queue. cbn [queues].
      pose proof (concat_set (queues st) s0 (queue_of st s0 ++ [p]) L) as P.
      change (nth s0 (queues st) []) with (queue_of st s0) in P. rewrite <- app_assoc in P.
      apply Permutation_app_inv_l in P. exact P.
    + intro s. rewrite credit_set_queue. cbn. lia.
    + intros s x X. rewrite queue_set in X by auto. destruct (Nat.eqb_spec s s0) as [->|].
      * apply in_app_iff in X. destruct X as [X|[<-|[]]]; [apply (f_place _ _ _ F), X|reflexivity].
      * apply (f_place _ _ _ F), X.
    + intro s. rewrite credit_set_queue. apply FP.
    + intro s. rewrite queue_set, credit_set_queue by auto. destruct (Nat.eqb_spec s s0) as [->|].
      * right; right; left. exists p. split; [apply in_app_iff; right; left; reflexivity|exact GT].
      * right; right; right. split; [reflexivity|congruence].
Qed.

Lemma perm_take : forall st s p q r, (s < length (queues st))%nat -> Permutation (queue_of st s) (p ++ q) ->
  r = queues (set_queue st s q) -> Permutation (p ++ concat r) (concat (queues st)).
Proof.
  intros st s p q r L P ->. cbn.
  pose proof (concat_set (queues st) s q L) as C. change (nth s (queues st) []) with (queue_of st s) in C.
  rewrite P in C. apply (Permutation_app_inv_l q). rewrite <- C.
  rewrite app_assoc. apply Permutation_app_tail, Permutation_app_comm.
Qed.

Lemma xbar_credit_acts : forall nvc st port vc n st' O, fine nvc true st -> 0 <= n ->
  (slot nvc port vc < length (queues st))%nat ->
  xbar_credit nvc st port vc n = (st', O) ->
  acts nvc true st [] (Some (slot nvc port vc, n)) st' O.
Proof.
  intros nvc st port vc n st' O F N L E. unfold xbar_credit in E. set (s0 := slot nvc port vc) in *.
  pose proof (f_len _ _ _ F) as FL. pose proof (f_pos _ _ _ F) as FP. pose proof (FP s0) as FP0.
  destruct (pop (credit_of st s0 + n) (queue_of st s0)) as [[p q]|] eqn:P; injection E as <- <-.
  - destruct (pop_some _ _ _ _ P) as [LE PE].
    assert (W : where_ nvc true p = s0).
    { apply (f_place _ _ _ F s0). rewrite PE. left; reflexivity. }
    pose proof (u32_le (credit_of st s0 + n) ltac:(lia)).
    assert (CR : forall s, credit_of (set_queue (set_credit st s0 (credit_of st s0 + n - p_bytes p)) s0 q) s
      = if (s =? s0)%nat then credit_of st s0 + n - p_bytes p else credit_of st s).
    { intro s. rewrite credit_set_queue. apply credit_set. lia. }
    assert (QU : forall s, queue_of (set_queue (set_credit st s0 (credit_of st s0 + n - p_bytes p)) s0 q) s
      = if (s =? s0)%nat then q else queue_of st s).
    { intro s. rewrite queue_set by exact L. reflexivity. }
    split.
    + cbn. apply set_nth_length.
    + cbn. apply set_nth_length.
    + cbn [app]. apply (perm_take st s0 [p] q); auto.
    + intro s. rewrite CR, sum_cons. cbn [sum fold_right]. unfold in_slot, cin_at. rewrite W.
      rewrite (Nat.eqb_sym s s0). destruct (Nat.eqb_spec s0 s) as [<-|]; lia.
    + intros s x X. rewrite QU in X. destruct (Nat.eqb_spec s s0) as [->|].
      * apply (f_place _ _ _ F). rewrite PE. right. exact X.
      * apply (f_place _ _ _ F), X.
    + intro s. rewrite CR. specialize (FP s). destruct (Nat.eqb_spec s s0); lia.
    + intro s. rewrite QU. destruct (Nat.eqb_spec s s0) as [->|].
      * right; left. exists p. split; [left; reflexivity|exact W].
      * right; right; right. split; [reflexivity|congruence].
  - assert (CR : forall s, credit_of (set_credit st s0 (credit_of st s0 + n)) s
      = if (s =? s0)%nat then credit_of st s0 + n else credit_of st s).
    { intro s. apply credit_set. lia. }
    split.
    + cbn. apply set_nth_length.
    + reflexivity.
    + cbn. reflexivity.
    + intro s. rewrite CR. unfold cin_at. cbn [sum fold_right]. destruct (Nat.eqb_spec s s0) as [->|]; lia.
    + apply (f_place _ _ _ F).
    + intro s. rewrite CR. specialize (FP s). destruct (Nat.eqb_spec s s0); lia.
    + intro s. rewrite CR, queue_set_credit. destruct (Nat.eqb_spec s s0) as [->|].
      * destruct (queue_of st s0) as [|x q] eqn:Q; [left; reflexivity|].
        right; right; left. exists x. split; [left; reflexivity|].
        apply (pop_none _ _ P). left; reflexivity.
      * right; right; right. split; [reflexivity|congruence].
Qed.

Lemma drain_spec : forall fuel c q c' q' out, (length q <= fuel)%nat -> 0 <= c ->
  drain fuel c q = (c', q', out) ->
  Permutation q (out ++ q') /\ c' = c - sum p_bytes out /\ 0 <= c' /\
  (forall x, In x q' -> u32 c' < p_bytes x) /\ (out = [] -> q' = q).
Proof.
  induction fuel as [|fuel IH]; intros c q c' q' out L P E; cbn [drain] in E.
  - destruct q; [|cbn in L; lia]. cbn in E. injection E as <- <- <-. cbn.
    repeat split; auto; try lia.
  - destruct (pop c q) as [[p r]|] eqn:PO.
    + destruct (drain fuel (c - p_bytes p) r) as [[c1 q1] out1] eqn:D. injection E as <- <- <-.
      destruct (pop_some _ _ _ _ PO) as [LE PE]. pose proof (u32_le c P).
      assert (LR : length q = S (length r)) by (rewrite PE; reflexivity).
      destruct (IH (c - p_bytes p) r c1 q1 out1 ltac:(lia) ltac:(lia) D) as [A [B [C [F G]]]].
      rewrite sum_cons. split; [|split; [lia|split; [exact C|split; [exact F|discriminate]]]].
      rewrite PE. cbn. constructor. exact A.
    + injection E as <- <- <-. cbn. split; [reflexivity|]. split; [lia|]. split; [exact P|].
      split; [apply pop_none, PO|reflexivity].
Qed.

Lemma buf_credit_acts : forall nvc st vc n st' O, fine nvc false st -> 0 <= n ->
  (vc < length (queues st))%nat ->
  buf_credit st vc n = (st', O) -> acts nvc false st [] (Some (vc, n)) st' O.
Proof.
  intros nvc st vc n st' O F N L E. unfold buf_credit in E.
  pose proof (f_len _ _ _ F) as FL. pose proof (f_pos _ _ _ F) as FP. pose proof (FP vc) as FP0.
  destruct (drain (length (queue_of st vc)) (credit_of st vc + n) (queue_of st vc)) as [[c q] out] eqn:D.
  injection E as <- <-.
  destruct (drain_spec (length (queue_of st vc)) (credit_of st vc + n) _ _ _ _ (le_n _) ltac:(lia) D) as [PE [CE [CP [DN DS]]]].
  assert (W : forall o, In o out -> where_ nvc false o = vc).
  { intros o OI. apply (f_place _ _ _ F vc). rewrite PE. apply in_app_iff. auto. }
  assert (CR : forall s, credit_of (set_queue (set_credit st vc c) vc q) s
      = if (s =? vc)%nat then c else credit_of st s).
  { intro s. rewrite credit_set_queue. apply credit_set. lia. }
  assert (QU : forall s, queue_of (set_queue (set_credit st vc c) vc q) s
      = if (s =? vc)%nat then q else queue_of st s).
  { intro s. rewrite queue_set by exact L. reflexivity. }
  split.
  - cbn. apply set_nth_length.
  - cbn. apply set_nth_length.
  - cbn [app]. apply (perm_take st vc out q); auto.
  - intro s. rewrite CR. unfold cin_at. destruct (Nat.eqb_spec s vc) as [->|NE].
    + rewrite (sum_ext _ (in_slot nvc false vc) p_bytes); [lia|].
      intros o OI. unfold in_slot. rewrite (W o OI), Nat.eqb_refl. reflexivity.
    + rewrite (sum_zero _ (in_slot nvc false s)); [lia|].
      intros o OI. unfold in_slot. rewrite (W o OI). destruct (Nat.eqb_spec vc s); congruence.
  - intros s x X. rewrite QU in X. destruct (Nat.eqb_spec s vc) as [->|].
    + apply (f_place _ _ _ F). rewrite PE. apply in_app_iff. auto.
    + apply (f_place _ _ _ F), X.
  - intro s. rewrite CR. specialize (FP s). destruct (Nat.eqb_spec s vc); lia.
  - intro s. rewrite QU, CR. destruct (Nat.eqb_spec s vc) as [->|].
    + destruct q as [|x q]; [left; reflexivity|]. right; right; left. exists x.
      split; [left; reflexivity|]. apply DN. left; reflexivity.
    + right; right; right. split; [reflexivity|congruence].
Qed.

Lemma inject_acts : forall nvc mtu st p st' O, fine nvc false st -> 0 <= p_bytes p <= mtu ->
  p_out p = 0%nat -> (p_vc p < length (queues st))%nat ->
  inject_one mtu st p = (st', O) ->
  acts nvc false st O None st' O /\ (O = [p] \/ O = []).
Proof.
  intros nvc mtu st p st' O F B PO L E. unfold inject_one in E.
  pose proof (f_len _ _ _ F) as FL. pose proof (f_pos _ _ _ F) as FP.
  assert (W : where_ nvc false p = p_vc p).
  { unfold where_, slot, leave_vc. rewrite PO. reflexivity. }
  destruct (Z.leb_spec mtu (credit_of st (p_vc p))) as [LE|GT]; injection E as <- <-; (split; [|auto]).
  - split.
    + cbn. apply set_nth_length.
    + reflexivity.
    + cbn. reflexivity.
    + intro s. rewrite credit_set by lia. rewrite sum_cons. cbn [sum fold_right]. unfold in_slot, cin_at.
      rewrite W, (Nat.eqb_sym s). destruct (Nat.eqb_spec (p_vc p) s) as [<-|]; lia.
    + apply (f_place _ _ _ F).
    + intro s. rewrite credit_set by lia. specialize (FP s). destruct (Nat.eqb_spec s (p_vc p)); lia.
    + intro s. right; right; right. split; [reflexivity|congruence].
  - split; [reflexivity|reflexivity|reflexivity| |apply (f_place _ _ _ F)|exact FP|].
    + intro s. cbn. lia.
    + intro s. right; right; right. split; [reflexivity|congruence].
Qed.

Lemma acts_fine : forall nvc u st I cin st' O, fine nvc u st -> acts nvc u st I cin st' O -> fine nvc u st'.
Proof.
  intros nvc u st I cin st' O F A. split.
  - rewrite (a_lenc _ _ _ _ _ _ _ A), (a_lenq _ _ _ _ _ _ _ A). apply F.
  - apply A.
  - apply A.
Qed.
