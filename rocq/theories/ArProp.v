(** C26, C29: folding onto a power of two, and allreduce. *)
From Coq Require Import List Arith Lia Bool.
From Verif Require Import RdModel RdProof AgProof ArModel ArProof ShModel ShProof ArRun.
Import ListNotations.

(** C26.  [pow2_of n] is the least power of two that is at least [n]; every
    virtual rank is a role of exactly one rank, the one the inverse map names,
    and every rank has one or two distinct roles. *)
Theorem folding_bijective : forall n, 0 < n ->
  let vn := pow2_of n in
  (exists k, vn = 2 ^ k) /\ n <= vn < 2 * n /\
  (forall v, v < vn -> virtual_to_real n vn v < n /\
     forall p, p < n -> (In v (real_to_virtual n vn p) <-> virtual_to_real n vn v = p)) /\
  (forall p, p < n -> NoDup (real_to_virtual n vn p) /\ 1 <= length (real_to_virtual n vn p) <= 2 /\
     forall v, In v (real_to_virtual n vn p) -> v < vn).
Proof.
  intros n Hn vn. destruct (ctree_ok n) as (P1 & _). pose proof (folds_pow2 n Hn) as Hf. fold vn in P1, Hf.
  split; [exists (log2_of n); exact P1|]. split; [unfold folds in Hf; lia|]. split.
  - intros v Hv. split; [apply v2r_lt; assumption|]. intros p Hp. apply roles_of_real; assumption.
  - intros p Hp. unfold real_to_virtual. destruct Hf as (H1 & H2 & H3).
    destruct (Nat.leb_spec (vn - n) p) as [H|H]; cbn [length In].
    + split; [|split; [lia|intros v [<-|[]]; lia]].
      constructor; [intros []|constructor].
    + split; [|split; [lia|intros v [<-|[<-|[]]]; lia]].
      constructor; [intros [E|[]]; lia|]. constructor; [intros []|constructor].
Qed.
Print Assumptions folding_bijective.

Example folding_6 : map (real_to_virtual 6 (pow2_of 6)) [0; 1; 2; 5] = [[0; 1]; [2; 3]; [4]; [7]].
Proof. reflexivity. Qed.

(** What the caller hands in at element [o]: the send buffer or, in place, the
    result buffer. *)
Definition ar_contribution {T} (dst : nat -> nat -> T) (src : nat -> option (nat -> T)) (j o : nat) : T :=
  match src j with None => dst j o | Some b => b o end.

(** The reduction in rank order. *)
Definition reduction {T} (op : T -> T -> T) (f : nat -> T) (n : nat) : T :=
  fold_left op (map f (seq 1 (n - 1))) (f 0).

(** All executions of the allreduce on [n] ranks: roles run asynchronously, the
    roles of one rank share its buffer. *)
Definition ar_run {T} op (n ne : nat) (dst : nat -> nat -> T) (src : nat -> option (nat -> T)) :=
  hexec (ar_sched op n ne (fun p => ar_init ne (dst p) (src p)))
        (virtual_to_real n (pow2_of n)) (fun p => ar_init ne (dst p) (src p)).

(** Rank [p] is done: all rounds of all its roles. *)
Definition ar_done {T} (n : nat) (h : shcfg T (list T)) (p : nat) : Prop :=
  forall v, In v (real_to_virtual n (pow2_of n) p) -> l_rnd (h_ctl h v) = 2 * log2_of n.

(** C29.  For every number of ranks, element count, contents and associative
    and commutative operation, in place or not, and every interleaving: a rank
    that is done holds the reduction of all contributions in every element, and
    nothing past its buffer was touched. *)
Theorem allreduce_reduces : forall T (op : T -> T -> T) n ne dst src k h p,
  (forall x y z, op x (op y z) = op (op x y) z) -> (forall x y, op x y = op y x) ->
  0 < n -> ar_run op n ne dst src k h -> p < n -> ar_done n h p ->
  forall o, h_mem h p o = if o <? ne then reduction op (fun j => ar_contribution dst src j o) n else dst p o.
Proof.
  intros T op n ne dst src k h p Ha Hc Hn Hx Hp Hd o.
  set (ini := fun p => ar_init ne (dst p) (src p)) in *.
  assert (Hpow : pow2_of n = 2 ^ log2_of n) by apply (ctree_ok n).
  unfold ar_run in Hx. fold ini in Hx. rewrite Hpow in Hx.
  pose proof (ar_local op n ne ini Hn) as Hl.
  assert (Hini : forall j, ini j o = if o <? ne then ar_contribution dst src j o else dst j o).
  { intros j. unfold ini, ar_init, ar_contribution. destruct (Nat.ltb_spec o ne) as [H|H].
    - destruct (src j) as [b|]; [|reflexivity].
      rewrite (bwrite_in _ _ _ _ (b 0)) by (rewrite bread_length; lia).
      rewrite nth_bread by lia. f_equal. lia.
    - destruct (src j) as [b|]; [|reflexivity]. apply bwrite_out. rewrite bread_length. lia. }
  destruct (Nat.ltb_spec o ne) as [Ho|Ho].
  - destruct (foot_cover n ne Hn p o Hp Ho) as (v & Hv & Hr & Hfo).
    destruct (Nat.eq_dec (log2_of n) 0) as [HL|HL].
    + assert (H1 : n = 1).
      { destruct (ctree_ok n) as (_ & P2 & _). rewrite HL in P2. cbn in P2. lia. }
      clear v Hv Hr Hfo. subst n. assert (p = 0) by lia. subst p. unfold reduction. cbn [Nat.sub seq map fold_left].
      inversion Hx as [|k' h0 h1 Hx' Hs]; subst.
      * cbn [hinit h_mem]. rewrite Hini. reflexivity.
      * exfalso. pose proof (shared_bounded _ _ _ _ Hl (ar_matched op 1 ne ini Hn)
          (ar_no_race op 1 ne ini Hn) _ _ Hx) as Hb. cbn [ar_sched sc_nr] in Hb. rewrite HL in Hb. lia.
    + rewrite <- Hr.
      assert (Hnr : l_rnd (h_ctl h v) = sc_nr (ar_sched op n ne ini)).
      { apply Hd. apply roles_of_real; [apply folds_pow2; exact Hn|lia|exact Hp|rewrite Hpow; exact Hr]. }
      assert (Hnp : v < sc_np (ar_sched op n ne ini)) by (cbn [ar_sched sc_np]; lia).
      rewrite (shared_result _ _ _ _ Hl (ar_matched op n ne ini Hn) (ar_no_race op n ne ini Hn)
               k h v o Hx Hnp Hfo Hnr).
      change (sc_nr (ar_sched op n ne ini)) with (2 * log2_of n).
      rewrite (ar_final op Ha Hc n ne ini Hn v o) by (try assumption; lia).
      unfold total, fsum, reduction. rewrite Hini. f_equal. apply map_ext. intros j. apply Hini.
  - rewrite (hexec_frame _ _ _ _ Hl k h Hx p o).
    + apply Hini.
    + intros v Hv Hr Hfo. apply (foot_ne n ne Hn) in Hfo. lia.
Qed.
Print Assumptions allreduce_reduces.

(** It never hangs and always ends. *)
Theorem allreduce_terminates : forall T (op : T -> T -> T) n ne dst src k h,
  0 < n -> ar_run op n ne dst src k h ->
  k <= 16 * log2_of n * n /\
  ((forall p, p < n -> ar_done n h p) \/ exists h', ar_run op n ne dst src (S k) h').
Proof.
  intros T op n ne dst src k h Hn Hx.
  set (ini := fun p => ar_init ne (dst p) (src p)) in *.
  assert (Hpow : pow2_of n = 2 ^ log2_of n) by apply (ctree_ok n).
  pose proof (folds_pow2 n Hn) as Hf.
  pose proof (ar_local op n ne ini Hn) as Hl. rewrite <- Hpow in Hl.
  unfold ar_run in *. fold ini in Hx. fold ini. split.
  - pose proof (shared_bounded _ _ _ _ Hl (ar_matched op n ne ini Hn) (ar_no_race op n ne ini Hn) _ _ Hx) as Hb.
    cbn [ar_sched sc_nr sc_np] in Hb. destruct Hf as (_ & _ & Hf).
    assert (Hmul : log2_of n * pow2_of n <= log2_of n * (2 * n)) by (apply Nat.mul_le_mono_l; lia).
    apply (Nat.le_trans _ _ _ Hb).
    replace (4 * (2 * log2_of n) * pow2_of n) with (8 * (log2_of n * pow2_of n)) by lia.
    replace (16 * log2_of n * n) with (8 * (log2_of n * (2 * n))) by lia. lia.
  - destruct (shared_progress _ _ _ _ Hl (ar_matched op n ne ini Hn) (ar_no_race op n ne ini Hn) _ _ Hx)
      as [Hd|(h' & Hs)].
    + left. intros p Hp v Hv. change (2 * log2_of n) with (sc_nr (ar_sched op n ne ini)). apply Hd.
      change (v < pow2_of n). unfold real_to_virtual in Hv. destruct Hf as (H1 & H2 & H3).
      destruct (Nat.leb_spec (pow2_of n - n) p); cbn [In] in Hv; lia.
    + right. exists h'. eapply hxS; [exact Hx|exact Hs].
Qed.
Print Assumptions allreduce_terminates.

(** Executions that are done exist for every input, so the theorem above is not
    about nothing. *)
Example allreduce_run_exists : forall T (op : T -> T -> T) n ne dst src, 0 < n ->
  exists k h, ar_run op n ne dst src k h /\ forall p, p < n -> ar_done n h p.
Proof.
  intros T op n ne dst src Hn.
  assert (H : forall m k h, ar_run op n ne dst src k h -> m + k = 16 * log2_of n * n ->
    exists k' h', ar_run op n ne dst src k' h' /\ forall p, p < n -> ar_done n h' p).
  { induction m as [|m IH]; intros k h Hx Hk;
      destruct (allreduce_terminates T op n ne dst src k h Hn Hx) as (_ & [H|(h' & H)]).
    - exists k, h. auto.
    - destruct (allreduce_terminates T op n ne dst src (S k) h' Hn H) as (Hb & _). lia.
    - exists k, h. auto.
    - apply (IH (S k) h' H). lia. }
  apply (H (16 * log2_of n * n) 0 (hinit (fun p => ar_init ne (dst p) (src p)))); [constructor|lia].
Qed.

(** Six ranks, five elements: the lockstep run of role 4 (rank 2). *)
Example allreduce_lockstep_6 :
  let s := ar_sched Nat.add 6 5 (fun p i => 10 * p + i) in
  map (smem s 6 4) (seq 0 5) = [150; 156; 162; 168; 174].
Proof. vm_compute. reflexivity. Qed.

(** Without commutativity the result depends on the element: here the operation
    keeps its left operand, and the two halves of the buffer differ
    (MpiApi::opCreate refuses such operations, sumi-mpi/mpi_api_type.cc:297-303). *)
Example allreduce_needs_commutativity :
  let s := ar_sched (fun x _ => x) 2 2 (fun p i => 10 * p + i) in
  map (smem s 2 0) (seq 0 2) = [0; 11].
Proof. vm_compute. reflexivity. Qed.
