(** C94: gather collects the block of every rank at the root. *)
From Coq Require Import List Arith Lia Bool.
From Verif Require Import RdModel RdProof PhModel PhProof BcProof GaModel GaProof.
Import ListNotations.

(** After a gather of [nelems] elements per rank: block [r] of the result buffer
    [b] of the root is what rank [r] contributed, and nothing behind the last
    block was written. *)
Definition gather_result {T} (n nelems : nat) (src : nat -> nat -> T) (old b : nat -> T) : Prop :=
  (forall r i, r < n -> i < nelems -> b (r * nelems + i) = src r i) /\
  (forall i, n * nelems <= i -> b i = old i).

Lemma holds_result : forall (T : Type) n nelems (src : nat -> nat -> T) b, holds nelems src 0 n b ->
  forall r i, r < n -> i < nelems -> b (r * nelems + i) = src r i.
Proof.
  intros T n nelems src b H r i Hr Hi. rewrite H by nia. rewrite (stream_add 2 0) by lia. unfold stream.
  rewrite Nat.div_small, Nat.mod_small by exact Hi. f_equal. lia.
Qed.

(** For any number of ranks, any root and any interleaving: the gather makes a
    bounded number of steps; it only stops when every rank is through; then no
    message is left over, the root has all blocks in order, and no other rank
    wrote outside its workspace of as many blocks as the largest power of two
    below the number of ranks. *)
Theorem gather_collects : forall (T : Type) n root nelems (src buf : nat -> nat -> T), 2 <= n -> root < n ->
  let g := gather_prog n root nelems src buf in
  (exists B, forall k c, pexec g k c -> k <= B) /\
  (forall k c, pexec g k c -> pstuck g c ->
     p_net c = [] /\ (forall p, p < n -> pdone (p_proc c p)) /\
     gather_result n nelems src (buf root) (w_mem (p_proc c root)) /\
     forall p w, p < n -> p <> root -> n <= 2 ^ S w -> 
       forall i, 2 ^ w * nelems <= i -> w_mem (p_proc c p) i = buf p i).
Proof.
  intros T n root nelems src buf Hn Hr g. split.
  - eexists. intros k c H. exact (phases_bounded g k c H).
  - intros k c Hx Hs. destruct (ga_balanced_single n root nelems Hn Hr src buf) as (B & S1).
    destruct (phases_complete g _ B S1 (ga_inside n root nelems Hn Hr src buf)
                (ga_ordered n root nelems Hn Hr src buf) k c Hx Hs) as (Hd & Hnet).
    split; [exact Hnet|]. split; [exact Hd|].
    assert (Hres : forall p, p < n -> ga_inv n root nelems src buf p (length (pg_ph g p)) (w_mem (p_proc c p))).
    { intros p Hp. exact (phases_result g _ _ (ga_annotated n root nelems Hn Hr src buf) k c p Hx Hp (Hd p Hp)). }
    split.
    + split.
      * intros r i H1 H2. apply (holds_result T n nelems src); [|exact H1|exact H2].
        apply (ga_root_done n root nelems Hn Hr src buf). apply Hres. exact Hr.
      * intros i Hi. destruct (Hres root Hr) as (Hk & _). apply Hk. unfold ga_cap. rewrite Nat.eqb_refl. exact Hi.
    + intros p w Hp Hne Hw i Hi. destruct (Hres p Hp) as (Hk & _). apply Hk. unfold ga_cap.
      destruct (Nat.eqb_spec p root); [contradiction|].
      assert (Hm : ga_mid n <= 2 ^ w).
      { pose proof (ga_mid_lt n root Hn Hr) as Hm. rewrite (ga_mid_pow n root Hn Hr) in *. apply Nat.pow_le_mono_r; [lia|].
        destruct (le_lt_dec (ga_log n - 1) w) as [H|H]; [exact H|exfalso].
        pose proof (Nat.pow_le_mono_r 2 (S w) (ga_log n - 1) ltac:(lia) H). lia. }
      pose proof (Nat.mul_le_mono_r _ _ nelems Hm). lia.
Qed.
Print Assumptions gather_collects.

(** The root may use the data as soon as it is through itself. *)
Theorem gather_early : forall (T : Type) n root nelems (src buf : nat -> nat -> T) k c, 2 <= n -> root < n ->
  pexec (gather_prog n root nelems src buf) k c -> pdone (p_proc c root) ->
  gather_result n nelems src (buf root) (w_mem (p_proc c root)).
Proof.
  intros T n root nelems src buf k c Hn Hr Hx Hd.
  pose proof (phases_result _ _ _ (ga_annotated n root nelems Hn Hr src buf) k c root Hx Hr Hd) as H.
  split.
  - intros r i H1 H2. apply (holds_result T n nelems src); [|exact H1|exact H2].
    apply (ga_root_done n root nelems Hn Hr src buf). exact H.
  - intros i Hi. destruct H as (Hk & _). apply Hk. unfold ga_cap. rewrite Nat.eqb_refl. exact Hi.
Qed.
Print Assumptions gather_early.

(** Seven ranks, root 6, two elements each. *)
Definition ex_src (p i : nat) : nat := 10 * p + i.
Definition ex_old (p i : nat) : nat := 900 + i.
Example ex_gather_messages : map (fun p => @all_s (nat -> nat) (list nat) (ga_phases 7 6 2 p)) (seq 0 7) =
  [[(3, 6)]; [(0, 0)]; [(1, 0)]; [(0, 2)]; [(3, 6)]; [(0, 4)]; [(1, 4)]].
Proof. vm_compute. reflexivity. Qed.
Example ex_gather_run : exists k c, pexec (gather_prog 7 6 2 ex_src ex_old) k c /\
  pstuck (gather_prog 7 6 2 ex_src ex_old) c /\
  map (w_mem (p_proc c 6)) (seq 0 15) = [0; 1; 10; 11; 20; 21; 30; 31; 40; 41; 50; 51; 60; 61; 914].
Proof.
  destruct (ga_balanced_single 7 6 2 ltac:(lia) ltac:(lia) ex_src ex_old) as (B & S1).
  destruct (phases_run (gather_prog 7 6 2 ex_src ex_old) _ B S1 (ga_inside 7 6 2 ltac:(lia) ltac:(lia) ex_src ex_old)
    (ga_ordered 7 6 2 ltac:(lia) ltac:(lia) ex_src ex_old)) as (k & c & Hx & Hs).
  exists k, c. split; [exact Hx|]. split; [exact Hs|].
  destruct (gather_collects nat 7 6 2 ex_src ex_old ltac:(lia) ltac:(lia)) as (_ & H).
  destruct (H k c Hx Hs) as (_ & _ & (R1 & R2) & _). cbn [seq map].
  pose proof (fun r i => R1 r i) as R.
  repeat match goal with |- context[w_mem (p_proc c 6) ?j] =>
    lazymatch eval vm_compute in (j <? 14) with
    | true => let r := eval vm_compute in (j / 2) in let i := eval vm_compute in (j mod 2) in
        replace (w_mem (p_proc c 6) j) with (ex_src r i) by (symmetry; exact (R1 r i ltac:(lia) ltac:(lia)))
    | false => rewrite (R2 j ltac:(lia))
    end end. reflexivity.
Qed.
