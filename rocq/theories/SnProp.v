(** C97: scan gives every rank the reduction of the contributions of all ranks
    up to its own. *)
From Coq Require Import List Arith Lia Bool.
From Verif Require Import RdModel RdProof ArModel PhModel PhProof GaProof SnModel SnProof.
Import ListNotations.

(** The reduction of the contributions of ranks 0 to [r]. *)
Fixpoint prefix {T} (op : T -> T -> T) (f : nat -> T) (r : nat) : T :=
  match r with 0 => f 0 | S r' => op (prefix op f r') (f r) end.

(** Result buffer [b] of rank [r] after a scan of [ne] elements. *)
Definition scan_result {T} (op : T -> T -> T) (ne : nat) (src : nat -> nat -> T) (old : nat -> T)
  (r : nat) (b : nat -> T) : Prop :=
  (forall i, i < ne -> b i = prefix op (fun p => src p i) r) /\ (forall i, ne <= i -> b i = old i).

(** The ranks whose contributions rank [r] gets: [r] itself and the ranks [r] - 1,
    [r] - 2, [r] - 4, ... *)
Definition gets (r : nat) : list nat :=
  r :: map (fun j => r - 2 ^ j) (filter (fun j => 2 ^ j <=? r) (seq 0 r)).
(** Their reduction, nearest first. *)
Definition reduce_list {T} (op : T -> T -> T) (f : nat -> T) (l : list nat) : T :=
  match l with [] => f 0 | r :: l' => fold_left op (map f l') (f r) end.

Section Values.
Context {T : Type}.
Variable op : T -> T -> T.
Variable src : nat -> nat -> T.

(** Without the copies. *)
Lemma rv_no_copies : forall k r i,
  rv op false src k r i =
  reduce_list op (fun p => src p i) (r :: map (fun j => r - 2 ^ j) (filter (fun j => 2 ^ j <=? r) (seq 0 k))).
Proof.
  intros k r i. cbn [reduce_list]. induction k as [|k IH]; [reflexivity|]. cbn [rv]. rewrite IH, seq_S, filter_app. cbn [Nat.add filter].
  destruct (2 ^ k <=? r); [|rewrite app_nil_r; reflexivity]. rewrite !map_app, fold_left_app. reflexivity.
Qed.

(** With the copies: the reduction of a window of ranks that ends at [r]. *)
Hypothesis op_assoc : forall x y z, op x (op y z) = op (op x y) z.
Hypothesis op_comm : forall x y, op x y = op y x.
Fixpoint window (i r w : nat) : T :=
  match w with 0 => src r i | S w' => op (window i r w') (src (r - S w') i) end.
Lemma window_app : forall i r w v, w < r -> window i r (w + S v) = op (window i r w) (window i (r - S w) v).
Proof.
  intros i r w v H. induction v as [|v IH].
  - rewrite Nat.add_1_r. reflexivity.
  - rewrite Nat.add_succ_r. cbn [window]. rewrite IH, <- op_assoc. do 3 f_equal. lia.
Qed.
Lemma rv_copies : forall k r i, rv op true src k r i = window i r (Nat.min r (2 ^ k - 1)).
Proof.
  induction k as [|k IH]; intros r i; [rewrite Nat.min_0_r; reflexivity|]. cbn [rv].
  pose proof (Nat.pow_nonzero 2 k ltac:(lia)) as Hp. assert (E2 : 2 ^ S k = 2 ^ k + 2 ^ k) by (cbn [Nat.pow]; lia).
  destruct (Nat.leb_spec (2 ^ k) r) as [H|H].
  - rewrite !IH. rewrite (Nat.min_r r (2 ^ k - 1)) by lia.
    replace (Nat.min r (2 ^ S k - 1)) with (2 ^ k - 1 + S (Nat.min (r - 2 ^ k) (2 ^ k - 1))) by lia.
    rewrite window_app by lia. do 3 f_equal. lia.
  - rewrite IH. f_equal. lia.
Qed.
Lemma window_prefix : forall r i, window i r r = prefix op (fun p => src p i) r.
Proof.
  assert (G : forall i w r, w < r -> op (window i r w) (prefix op (fun p => src p i) (r - S w)) = prefix op (fun p => src p i) r).
  { intros i w. induction w as [|w IH]; intros r H.
    - cbn [window]. destruct r as [|r]; [lia|]. rewrite Nat.sub_succ, Nat.sub_0_r. cbn [prefix]. apply op_comm.
    - cbn [window]. rewrite <- (IH r) by lia. rewrite <- op_assoc. f_equal.
      replace (r - S w) with (S (r - S (S w))) by lia. cbn [prefix]. apply op_comm. }
  intros r i. destruct r as [|r]; [reflexivity|]. rewrite <- (G i r (S r)) by lia. cbn [window]. rewrite Nat.sub_diag. reflexivity.
Qed.
End Values.

Section Run.
Context {T : Type}.
Variables (op : T -> T -> T) (n ne : nat) (rb : bool) (src wsp dst : nat -> nat -> T).

(** Any scan makes a bounded number of steps and only stops when every rank is
    through; no message is left over then. *)
Lemma scan_runs : let g := scan_with op n ne rb src wsp dst in
  (exists B, forall k c, pexec g k c -> k <= B) /\
  (forall k c, pexec g k c -> pstuck g c -> p_net c = [] /\ forall p, p < n -> pdone (p_proc c p)).
Proof.
  intros g. split.
  - eexists. intros k c H. exact (phases_bounded g k c H).
  - intros k c Hx Hs. destruct (sn_balanced_single op n ne rb src wsp dst) as (B & S1).
    destruct (phases_complete g _ B S1 (sn_inside op n ne rb src wsp dst) (sn_ordered op n ne rb src wsp dst) k c Hx Hs) as (Hd & Hnet).
    split; assumption.
Qed.
End Run.

(** initDag with a receive buffer: every rank gets its prefix, for any number of
    ranks, any associative and commutative operation and any interleaving. *)
Theorem scan_with_copies : forall (T : Type) (op : T -> T -> T) n ne (src wsp dst : nat -> nat -> T),
  (forall x y z, op x (op y z) = op (op x y) z) -> (forall x y, op x y = op y x) ->
  let g := scan_with op n ne true src wsp dst in
  (exists B, forall k c, pexec g k c -> k <= B) /\
  (forall k c, pexec g k c -> pstuck g c -> p_net c = [] /\ forall p, p < n -> pdone (p_proc c p)) /\
  (forall k c r, pexec g k c -> r < n -> pdone (p_proc c r) ->
     scan_result op ne src (dst r) r (snd (w_mem (p_proc c r)))).
Proof.
  intros T op n ne src wsp dst Ha Hc g. destruct (scan_runs op n ne true src wsp dst) as (B & D).
  split; [exact B|]. split; [exact D|]. intros k c r Hx Hr Hd.
  destruct (sn_done op n ne true src wsp dst k c r r Hr (Nat.pow_gt_lin_r 2 r ltac:(lia)) Hx Hd) as (R1 & R2).
  split; [|exact R2]. intros i Hi. rewrite R1 by exact Hi. rewrite (rv_copies op src Ha).
  pose proof (Nat.pow_gt_lin_r 2 r ltac:(lia)). rewrite Nat.min_l by lia. apply window_prefix; assumption.
Qed.
Print Assumptions scan_with_copies.

(** The scan as it is set up: it comes to an end, and rank [r] gets the
    reduction of its own contribution and those of ranks [r] - 1, [r] - 2,
    [r] - 4, ...; that is the prefix for the first three ranks.
    Missing: the prefix on all other ranks, see scan_refuted. *)
Theorem scan_partial : forall (T : Type) (op : T -> T -> T) n ne (src wsp dst : nat -> nat -> T),
  let g := scan_prog op n ne src wsp dst in
  (exists B, forall k c, pexec g k c -> k <= B) /\
  (forall k c, pexec g k c -> pstuck g c -> p_net c = [] /\ forall p, p < n -> pdone (p_proc c p)) /\
  (forall k c r, pexec g k c -> r < n -> pdone (p_proc c r) ->
     (forall i, i < ne -> snd (w_mem (p_proc c r)) i = reduce_list op (fun p => src p i) (gets r)) /\
     ((forall x y z, op x (op y z) = op (op x y) z) -> (forall x y, op x y = op y x) -> r < 3 ->
        scan_result op ne src (dst r) r (snd (w_mem (p_proc c r))))).
Proof.
  intros T op n ne src wsp dst g. destruct (scan_runs op n ne false src wsp dst) as (B & D).
  split; [exact B|]. split; [exact D|]. intros k c r Hx Hr Hd.
  destruct (sn_done op n ne false src wsp dst k c r r Hr (Nat.pow_gt_lin_r 2 r ltac:(lia)) Hx Hd) as (R1 & R2).
  assert (R : forall i, i < ne -> snd (w_mem (p_proc c r)) i = reduce_list op (fun p => src p i) (gets r)).
  { intros i Hi. rewrite R1 by exact Hi. apply rv_no_copies. }
  split; [exact R|]. intros Ha Hc H3. split; [|exact R2]. intros i Hi. rewrite (R i Hi).
  destruct r as [|[|[|r]]]; [| | |lia]; unfold gets; cbn.
  - reflexivity.
  - apply Hc.
  - rewrite (Hc (op (src 2 i) (src 1 i)) (src 0 i)), (Hc (src 2 i) (src 1 i)). apply Ha.
Qed.
Print Assumptions scan_partial.

(** Rank [r] never hears of rank [r] - 3. *)
Lemma gets_gap : forall r, 3 <= r -> ~ In (r - 3) (gets r).
Proof.
  intros r H [E|E]; [lia|]. apply in_map_iff in E. destruct E as (j & E & Hj). apply filter_In in Hj.
  destruct Hj as (_ & Hj). apply Nat.leb_le in Hj. destruct j as [|[|j]]; cbn [Nat.pow] in *; try lia.
Qed.

(** Sums: rank [r] - 3 contributes 1, everybody else 0.  No rank from 3 on ever
    gets the right result, whatever the order of events. *)
Theorem scan_refuted : forall n r ne, 3 <= r -> r < n -> 0 < ne -> exists src : nat -> nat -> nat,
  forall wsp dst, let g := scan_prog Nat.add n ne src wsp dst in
  (exists k c, pexec g k c /\ pstuck g c) /\
  (forall k c, pexec g k c -> pdone (p_proc c r) ->
     ~ scan_result Nat.add ne src (dst r) r (snd (w_mem (p_proc c r)))).
Proof.
  intros n r ne H3 Hr Hne. exists (fun p _ => if p =? r - 3 then 1 else 0). intros wsp dst g.
  set (src := fun p (_ : nat) => if p =? r - 3 then 1 else 0) in *. split.
  - destruct (sn_balanced_single Nat.add n ne false src wsp dst) as (B & S1).
    exact (phases_run g _ B S1 (sn_inside Nat.add n ne false src wsp dst) (sn_ordered Nat.add n ne false src wsp dst)).
  - intros k c Hx Hd (R & _).
    destruct (scan_partial nat Nat.add n ne src wsp dst) as (_ & _ & P). destruct (P k c r Hx Hr Hd) as (Q & _).
    specialize (R 0 Hne). specialize (Q 0 Hne). rewrite Q in R. clear Q P.
    assert (E1 : reduce_list Nat.add (fun p => src p 0) (gets r) = 0).
    { assert (Hz : forall p, In p (gets r) -> src p 0 = 0).
      { intros p Hp. unfold src. destruct (Nat.eqb_spec p (r - 3)) as [->|]; [|reflexivity]. destruct (gets_gap r H3 Hp). }
      unfold gets in *. set (l := map _ _) in *. clearbody l. cbn [reduce_list]. rewrite (Hz r) by (left; reflexivity).
      assert (Hl : forall p, In p l -> src p 0 = 0) by (intros p Hp; apply Hz; right; exact Hp). clear - Hl.
      induction l as [|a l IH]; [reflexivity|]. cbn [map fold_left]. rewrite (Hl a) by (left; reflexivity).
      apply IH. intros p Hp. apply Hl. right. exact Hp. }
    assert (E2 : forall m, r - 3 <= m -> 1 <= prefix Nat.add (fun p => src p 0) m).
    { induction m as [|m IH]; intros Hm; cbn [prefix].
      - unfold src. destruct (Nat.eqb_spec 0 (r - 3)); lia.
      - destruct (Nat.eq_dec (S m) (r - 3)) as [E|E]; [|specialize (IH ltac:(lia)); lia].
        assert (src (S m) 0 = 1) by (unfold src; rewrite E, Nat.eqb_refl; reflexivity). lia. }
    specialize (E2 r ltac:(lia)). lia.
Qed.
Print Assumptions scan_refuted.

(** Six ranks. *)
Example ex_scan_messages : map (fun p => @all_s _ _ (pg_ph (scan_prog Nat.add 6 2 (fun p i => p) (fun _ _ => 0) (fun _ _ => 0)) p)) (seq 0 6) =
  [[(0, 1); (1, 2); (2, 4)]; [(0, 2); (1, 3); (2, 5)]; [(0, 3); (1, 4)]; [(0, 4); (1, 5)]; [(0, 5)]; []].
Proof. vm_compute. reflexivity. Qed.
Example ex_gets : gets 5 = [5; 4; 3; 1].
Proof. reflexivity. Qed.
Example ex_scan_run : exists k c, pexec (scan_prog Nat.add 6 2 (fun p i => 10 * p + i) (fun _ _ => 0) (fun _ _ => 0)) k c /\
  (forall p, p < 6 -> pdone (p_proc c p)) /\ snd (w_mem (p_proc c 2)) 1 = 33 /\ snd (w_mem (p_proc c 5)) 1 = 134.
Proof.
  set (src := fun p i => 10 * p + i). set (z := fun _ _ : nat => 0).
  destruct (sn_balanced_single Nat.add 6 2 false src z z) as (B & S1).
  destruct (phases_run (scan_prog Nat.add 6 2 src z z) _ B S1 (sn_inside Nat.add 6 2 false src z z)
    (sn_ordered Nat.add 6 2 false src z z)) as (k & c & Hx & Hs).
  destruct (scan_partial nat Nat.add 6 2 src z z) as (_ & D & P). destruct (D k c Hx Hs) as (_ & Hd).
  exists k, c. split; [exact Hx|]. split; [exact Hd|]. split.
  - destruct (P k c 2 Hx ltac:(lia) (Hd 2 ltac:(lia))) as (Q & _). rewrite Q by lia. reflexivity.
  - destruct (P k c 5 Hx ltac:(lia) (Hd 5 ltac:(lia))) as (Q & _). rewrite Q by lia. reflexivity.
Qed.
