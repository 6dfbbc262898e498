(** C96: reduce leaves the reduction of all contributions at the root. *)
From Coq Require Import List Arith Lia Bool.
From Verif Require Import RdModel RdProof AgProof ArModel ArProof ShModel ShProof ArRun ArProp ReModel ReProof.
Import ListNotations.

(** All executions of a reduce: [dst p] is the result buffer of the root and the
    workspace of the other ranks, [src p] the contribution of rank [p]. *)
Definition re_run {T} op (n ne root : nat) (dst src : nat -> nat -> T) :=
  xexec op n ne root (fun p => re_init ne (dst p) (src p)).

Lemma re_init_eq : forall (T : Type) ne (d b : nat -> T) o, re_init ne d b o = if o <? ne then b o else d o.
Proof.
  intros T ne d b o. unfold re_init. destruct (Nat.ltb_spec o ne) as [H|H].
  - rewrite (bwrite_in _ _ _ _ (b 0)) by (rewrite bread_length; lia). rewrite nth_bread by lia. f_equal. lia.
  - apply bwrite_out. rewrite bread_length. lia.
Qed.

Lemma total_reduction : forall (T : Type) op n ne (dst src : nat -> nat -> T) o, o < ne ->
  total op n (fun p => re_init ne (dst p) (src p)) o = reduction op (fun j => src j o) n.
Proof.
  intros T op n ne dst src o Ho. unfold total, fsum, reduction.
  assert (E : forall j, re_init ne (dst j) (src j) o = src j o) by (intros j; rewrite re_init_eq, (proj2 (Nat.ltb_lt o ne) Ho); reflexivity).
  rewrite E. f_equal. apply map_ext. intros j. apply E.
Qed.

Lemma re_split_le : forall ne, re_split ne <= ne.
Proof. intros ne. unfold re_split. destruct (half_split ne) as (E1 & E2 & E3). lia. Qed.

(** The result at a root other than 0, given what rank 1 holds in the second
    half. *)
Lemma re_nonzero : forall (T : Type) (op : T -> T -> T) n ne root (dst src : nat -> nat -> T) (G1 : nat -> T) k x,
  (forall x y z, op x (op y z) = op (op x y) z) -> (forall x y, op x y = op y x) -> 2 <= n -> root < n -> root <> 0 ->
  (forall k h o, hexec (re_sched op n ne root (fun p => re_init ne (dst p) (src p))) (virtual_to_real n (pow2_of n))
       (fun p => re_init ne (dst p) (src p)) k h ->
     re_joined n root h 1 -> re_split ne <= o < ne -> h_mem h 1 o = G1 o) ->
  re_run op n ne root dst src k x -> re_done n root x root -> forall o,
  h_mem (x_h x) root o = if o <? re_split ne then reduction op (fun j => src j o) n else if o <? ne then G1 o else dst root o.
Proof.
  intros T op n ne root dst src G1 k x Ha Hc H2 Hr H0 HG1 Hx Hd o. pose proof (re_split_le ne) as Hsp.
  set (ini := fun p => re_init ne (dst p) (src p)) in *.
  destruct (last_result op n ne root ini H2 Hr (fun c o => if c =? 0 then total op n ini o else G1 o)) with (k := k) (x := x) as (R1 & R2 & R3).
  - intros k0 h c i Hh Hl Hj Hi. assert (Hc1 : c = 0 \/ c = 1).
    { destruct Hl as [Hl|Hl]; [apply (re_last_le1 n root H2 Hr c Hl)|lia]. }
    destruct Hc1 as [-> | ->]; unfold re_off, re_len in Hi; cbn [Nat.eqb] in Hi |- *.
    + rewrite re_pow in Hh. apply (re_first_half op n ne root ini ltac:(lia) Ha Hc H0 H2 k0 h i Hh Hj). lia.
    + apply (HG1 k0 h); [exact Hh|exact Hj|lia].
  - exact H0.
  - exact Hx.
  - exact Hd.
  - cbn [Nat.eqb] in R1, R2. destruct (Nat.ltb_spec o (re_split ne)) as [H|H].
    + rewrite R1 by exact H. apply total_reduction. lia.
    + destruct (Nat.ltb_spec o ne) as [H'|H'].
      * apply R2. lia.
      * rewrite R3 by exact H'. unfold ini. rewrite re_init_eq, (proj2 (Nat.ltb_ge o ne) H'). reflexivity.
Qed.

(** For every number of ranks, element count, contents, associative and
    commutative operation and interleaving: when the root is done, its result
    buffer holds the reduction of all contributions, and nothing past it was
    written.  Holds for root 0, for any number of ranks that is not one short of
    a power of two, and for a single element.
    MISSING: the remaining case is false, see [reduce_refuted]. *)
Theorem reduce_reduces_partial : forall T (op : T -> T -> T) n ne root dst src k x,
  (forall x y z, op x (op y z) = op (op x y) z) -> (forall x y, op x y = op y x) ->
  2 <= n -> root < n -> root = 0 \/ (forall w, n + 1 <> 2 ^ w) \/ ne <= 1 ->
  re_run op n ne root dst src k x -> re_done n root x root ->
  forall o, h_mem (x_h x) root o = if o <? ne then reduction op (fun j => src j o) n else dst root o.
Proof.
  intros T op n ne root dst src k x Ha Hc H2 Hr Hcase Hx Hd o. pose proof (re_split_le ne) as Hsp.
  set (ini := fun p => re_init ne (dst p) (src p)) in *.
  destruct (Nat.eq_dec root 0) as [E0|E0].
  - subst root.
    assert (Hno : forall c, re_last 0 c = false) by reflexivity.
    destruct (xinv_exec op n ne 0 ini H2 Hr (fun _ _ => src 0 0)) with (k := k) (x := x) as (k0 & h0 & I1 & I2 & _ & _ & _ & I6 & _ & I8 & _).
    + intros k0 h c i _ [Hl|(Hl & _)]; [rewrite Hno in Hl; discriminate|contradiction].
    + exact Hx.
    + rewrite I8 by (intros c Ec; rewrite (I6 c (Hno c)) in Ec; discriminate). rewrite re_pow in I1.
      destruct (Nat.ltb_spec o ne) as [Ho|Ho].
      * rewrite (re_root0 op n ne 0 ini ltac:(lia) Ha Hc k0 h0 o eq_refl H2 I1); [|intros v Hv; rewrite <- I2; apply (proj1 Hd); exact Hv|exact Ho].
        apply total_reduction. exact Ho.
      * rewrite (re_outside op n ne 0 ini ltac:(lia) k0 h0 0 o I1 Ho). unfold ini. rewrite re_init_eq, (proj2 (Nat.ltb_ge o ne) Ho). reflexivity.
  - rewrite (re_nonzero T op n ne root dst src (fun o => reduction op (fun j => src j o) n) k x Ha Hc H2 Hr E0); [| |exact Hx|exact Hd].
    + destruct (Nat.ltb_spec o (re_split ne)) as [H|H]; [|reflexivity]. rewrite (proj2 (Nat.ltb_lt o ne)) by lia. reflexivity.
    + intros k0 h i Hh Hj Hi. fold ini in Hh. rewrite re_pow in Hh. destruct Hcase as [Hcase|[Hcase|Hcase]]; [contradiction| |].
      * rewrite (re_second_half op n ne root ini ltac:(lia) Ha Hc E0 H2 k0 h i Hh Hj (Hcase _) Hi). apply total_reduction. lia.
      * exfalso. unfold re_split in Hi. destruct ne as [|[|ne']]; cbn in Hi; lia.
Qed.
Print Assumptions reduce_reduces_partial.

(** It never hangs and always ends, for every number of ranks and every root. *)
Theorem reduce_terminates : forall T (op : T -> T -> T) n ne root dst src k x,
  2 <= n -> root < n -> re_run op n ne root dst src k x ->
  k <= 16 * log2_of n * n + 4 /\
  ((forall p, p < n -> re_done n root x p) \/ exists x', re_run op n ne root dst src (S k) x').
Proof.
  intros T op n ne root dst src k x H2 Hr Hx. set (ini := fun p => re_init ne (dst p) (src p)) in *. split.
  - destruct (last_bounded op n ne root ini H2 Hr k x Hx) as (k0 & h0 & I1 & _ & _ & _ & _ & Hk).
    pose proof (shared_bounded _ _ _ _ (re_local' op n ne root ini H2 Hr) (re_matched op n ne root ini ltac:(lia)) (re_no_race op n ne root ini ltac:(lia)) _ _ I1) as Hb.
    cbn [re_sched sc_nr sc_np] in Hb. destruct (folds_pow2 n ltac:(lia)) as (_ & _ & Hf).
    assert (Hh : re_halving n root <= log2_of n) by (unfold re_halving; destruct (root =? 0); lia).
    assert (Hmul : (log2_of n + re_halving n root) * pow2_of n <= (2 * log2_of n) * (2 * n)) by (apply Nat.mul_le_mono; lia).
    assert (Hs : forall f : fstat T, chan_size f <= 2) by (intros [| |]; cbn; lia).
    pose proof (Hs (x_ch x 0)). pose proof (Hs (x_ch x 1)).
    replace (4 * (log2_of n + re_halving n root) * pow2_of n) with (4 * ((log2_of n + re_halving n root) * pow2_of n)) in Hb by lia.
    replace (16 * log2_of n * n) with (4 * ((2 * log2_of n) * (2 * n))) by lia. lia.
  - (* the contents do not matter here: any G will do that describes what the ranks hold *)
    destruct (last_bounded op n ne root ini H2 Hr k x Hx) as (k0 & h0 & I1 & I2 & I3 & I4 & I5 & _).
    destruct (shared_progress _ _ _ _ (re_local' op n ne root ini H2 Hr) (re_matched op n ne root ini ltac:(lia)) (re_no_race op n ne root ini ltac:(lia)) k0 h0 I1) as [Hd|(h' & Hs)].
    + assert (Hj : forall p, p < n -> re_joined n root (x_h x) p).
      { intros p Hp v Hv. rewrite I2. apply Hd. cbn [re_sched sc_np]. destruct (folds_pow2 n ltac:(lia)) as (F1 & F2 & F3).
        unfold real_to_virtual in Hv. destruct (Nat.leb_spec (pow2_of n - n) p); cbn [In] in Hv; lia. }
      assert (Hchan : forall c, (re_last root c = true -> x_ch x c = FDone) \/ exists x', xstep op n ne root ini x x').
      { intros c. destruct (re_last root c) eqn:El; [|left; discriminate]. destruct (re_last_le1 n root H2 Hr c El) as (Hc & _).
        destruct (x_ch x c) as [|m|] eqn:E; [right|right|left; auto].
        - eexists. apply (x_send op n ne root ini x c); [exact El|apply Hj; lia|exact E].
        - eexists. apply (x_recv op n ne root ini x c m); [exact El|apply Hj; exact Hr|exact E]. }
      assert (Hstep : (exists x', xstep op n ne root ini x x') -> exists x', re_run op n ne root dst src (S k) x').
      { intros (x' & Hs). exists x'. eapply xxS; [exact Hx|exact Hs]. }
      destruct (Hchan 0) as [C0|C0]; [|right; apply Hstep; exact C0]. destruct (Hchan 1) as [C1|C1]; [|right; apply Hstep; exact C1].
      assert (Hall : forall c, re_last root c = true -> x_ch x c = FDone).
      { intros c Hl. destruct (re_last_le1 n root H2 Hr c Hl) as ([-> | ->] & _); auto. }
      left. intros p Hp. split; [apply Hj; exact Hp|]. split; [|intros c Hl _; apply Hall; exact Hl].
      intros c Hl _. rewrite (Hall c Hl). discriminate.
    + right. destruct (hstep_back op n ne root ini (x_h x) h0 h' I2 I3 Hs) as (h2 & Hs2). eexists. eapply xxS; [exact Hx|].
      apply (x_role op n ne root ini x h2). exact Hs2.
Qed.
Print Assumptions reduce_terminates.

Lemma re_run_exists : forall T (op : T -> T -> T) n ne root dst src, 2 <= n -> root < n ->
  exists k x, re_run op n ne root dst src k x /\ forall p, p < n -> re_done n root x p.
Proof.
  intros T op n ne root dst src H2 Hr.
  assert (H : forall m k x, re_run op n ne root dst src k x -> m + k = 16 * log2_of n * n + 4 ->
    exists k x, re_run op n ne root dst src k x /\ forall p, p < n -> re_done n root x p).
  { induction m as [|m IH]; intros k x Hx Hk; destruct (reduce_terminates T op n ne root dst src k x H2 Hr Hx) as (Hb & [Hd|(x' & Hx')]).
    - exists k, x. auto.
    - destruct (reduce_terminates T op n ne root dst src (S k) x' H2 Hr Hx') as (Hb' & _). lia.
    - exists k, x. auto.
    - apply (IH (S k) x' Hx'). lia. }
  eapply (H (16 * log2_of n * n + 4) 0); [constructor|lia].
Qed.

(** With one rank less than a power of two, a root other than 0 and two or more
    elements, the second half of the result is the contribution of rank 1
    alone. *)
Theorem reduce_refuted : forall w root ne, root < 2 ^ w - 1 -> root <> 0 -> 2 <= ne ->
  let n := 2 ^ w - 1 in
  forall T (op : T -> T -> T) dst src,
  (forall x y z, op x (op y z) = op (op x y) z) -> (forall x y, op x y = op y x) ->
  (exists k x, re_run op n ne root dst src k x /\ forall p, p < n -> re_done n root x p) /\
  (exists o, o < ne /\ forall k x, re_run op n ne root dst src k x -> re_done n root x root -> h_mem (x_h x) root o = src 1 o).
Proof.
  intros w root ne Hr H0 Hne n T op dst src Ha Hc.
  assert (Hn : n + 1 = 2 ^ w) by (unfold n; lia). assert (H2 : 2 <= n) by (unfold n in *; lia). fold n in Hr.
  split; [apply re_run_exists; assumption|].
  exists (ne - 1). split; [lia|]. intros k x Hx Hd.
  assert (HL : n + 1 = 2 ^ log2_of n).
  { destruct (folds_pow2 n ltac:(lia)) as (F1 & F2 & F3). pose proof (re_pow n) as EP.
    destruct (Nat.lt_trichotomy (log2_of n) w) as [H|[H|H]]; [exfalso|rewrite H; exact Hn|exfalso].
    - pose proof (Nat.pow_le_mono_r 2 (S (log2_of n)) w ltac:(lia) H) as Hp. rewrite Nat.pow_succ_r' in Hp. lia.
    - pose proof (Nat.pow_le_mono_r 2 (S w) (log2_of n) ltac:(lia) H) as Hp. rewrite Nat.pow_succ_r' in Hp. lia. }
  assert (Hsp : re_split ne <= ne - 1).
  { unfold re_split. destruct (half_split ne) as (E1 & E2 & E3). pose proof (Nat.div_le_lower_bound ne 2 1 ltac:(lia) ltac:(lia)). lia. }
  rewrite (re_nonzero T op n ne root dst src (fun o => src 1 o) k x Ha Hc H2 Hr H0); [| |exact Hx|exact Hd].
  - rewrite (proj2 (Nat.ltb_ge (ne - 1) (re_split ne)) Hsp), (proj2 (Nat.ltb_lt (ne - 1) ne)) by lia. reflexivity.
  - intros k0 h i Hh Hj Hi. rewrite re_pow in Hh.
    rewrite (re_second_half_stale op n ne root _ ltac:(lia) H0 H2 k0 h i Hh Hj HL Hi).
    rewrite re_init_eq, (proj2 (Nat.ltb_lt i ne)) by lia. reflexivity.
Qed.
Print Assumptions reduce_refuted.

(** Three ranks, root 2, four elements, sums: 21, 24, 27, 30 expected. *)
Example ex_reduce_wrong : forall dst, exists k x,
  re_run Nat.add 3 4 2 dst (fun p i => 5 * p + i + 2) k x /\ re_done 3 2 x 2 /\
  h_mem (x_h x) 2 0 = 21 /\ h_mem (x_h x) 2 3 = 10 /\ reduction Nat.add (fun j => 5 * j + 3 + 2) 3 = 30.
Proof.
  intros dst. destruct (re_run_exists nat Nat.add 3 4 2 dst (fun p i => 5 * p + i + 2)) as (k & x & Hx & Hd); [lia|lia|].
  exists k, x. split; [exact Hx|]. split; [apply Hd; lia|].
  assert (R : forall o, h_mem (x_h x) 2 o = if o <? 2 then reduction Nat.add (fun j => 5 * j + o + 2) 3 else if o <? 4 then 5 + o + 2 else dst 2 o).
  { apply (re_nonzero nat Nat.add 3 4 2 dst (fun p i => 5 * p + i + 2) (fun o => 5 + o + 2) k x Nat.add_assoc Nat.add_comm);
      [lia|lia|lia| |exact Hx|apply Hd; lia].
    intros k0 h i Hh Hj Hi. rewrite re_pow in Hh.
    rewrite (re_second_half_stale Nat.add 3 4 2 _ ltac:(lia) ltac:(lia) ltac:(lia) k0 h i Hh Hj eq_refl Hi).
    rewrite re_init_eq, (proj2 (Nat.ltb_lt i 4)) by lia. lia. }
  rewrite !R. repeat split.
Qed.

(** Six ranks, root 3, four elements. *)
Example ex_reduce : forall dst, exists k x,
  re_run Nat.add 6 4 3 dst (fun p i => 5 * p + i) k x /\ re_done 6 3 x 3 /\
  map (h_mem (x_h x) 3) [0; 1; 2; 3] = [75; 81; 87; 93] /\ h_mem (x_h x) 3 4 = dst 3 4.
Proof.
  intros dst. destruct (re_run_exists nat Nat.add 6 4 3 dst (fun p i => 5 * p + i)) as (k & x & Hx & Hd); [lia|lia|].
  exists k, x. split; [exact Hx|]. split; [apply Hd; lia|].
  assert (R : forall o, h_mem (x_h x) 3 o = if o <? 4 then reduction Nat.add (fun j => 5 * j + o) 6 else dst 3 o).
  { apply (reduce_reduces_partial nat Nat.add 6 4 3 dst (fun p i => 5 * p + i) k x Nat.add_assoc Nat.add_comm); [lia|lia| |exact Hx|apply Hd; lia].
    right. left. intros w E. destruct w as [|[|[|w]]]; cbn in E; lia. }
  cbn [map]. rewrite !R. split; reflexivity.
Qed.
