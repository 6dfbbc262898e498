(** C122, C123: MPI_Allgatherv and MPI_Alltoallv. *)
From Coq Require Import List Arith ZArith Bool Lia.
From Verif Require Import DtModel DtSpec DtProof RdModel RdProof AgModel AvModel AvProp McModel McSpec McProof McProp VcModel VcProof.
Import ListNotations.
Local Open Scope Z_scope.

(** What MPI says: block [j] has [cnt j] elements and begins [dis j] elements behind [a];
    it holds [f j], and [m'] is [m] outside of the blocks. *)
Definition holds_vblocks {A} (n : nat) (d : dt) (cnt dis : nat -> nat) (a : Z) (f : nat -> nat -> A) (m m' : mem A) : Prop :=
  (forall j i, (j < n)%nat -> (i < nbytes d (cnt j))%nat -> data d (cnt j) m' (a + Z.of_nat (dis j) * dext d) i = f j i) /\
  (forall x, (forall j, (j < n)%nat -> ~ In (x - (a + Z.of_nat (dis j) * dext d)) (tmapn d (cnt j))) -> m' x = m x).

(** What rank [j] puts into an allgatherv. *)
Definition contributed_v {A} (dflt : A) (c : nat -> vcall) (ms : nat -> mem A) (j i : nat) : A :=
  match v_send (c j), v_st (c j), v_recv (c j), v_rt (c j) with
  | PAt a, Some d, _, _ => data d (v_scnts (c j) j) (ms j) a i
  | PInPlace, _, PAt a, Some d => data d (v_rcnts (c j) j) (ms j) (a + Z.of_nat (v_rdispls (c j) j) * dext d) i
  | _, _, _, _ => dflt
  end.

Lemma displ_S : forall f j, displ f (S j) = (displ f j + f j)%nat.
Proof. intros f j. rewrite <- !displ_sum. reflexivity. Qed.
Lemma displ_mul : forall f k j, displ (fun i => (f i * k)%nat) j = (displ f j * k)%nat.
Proof. intros f k. induction j as [|j IH]; [reflexivity|]. rewrite !displ_S, IH. lia. Qed.
Lemma displ_ext : forall f g j, (forall i, (i < j)%nat -> f i = g i) -> displ f j = displ g j.
Proof. intros f g. induction j as [|j IH]; intros H; [reflexivity|]. rewrite !displ_S, IH by (intros; apply H; lia). now rewrite H by lia. Qed.
Lemma displ_mono : forall f j k, (j <= k)%nat -> (displ f j <= displ f k)%nat.
Proof. intros f j k H. induction H as [|k H IH]; [lia|]. rewrite displ_S. lia. Qed.
Lemma displ_find : forall f n x, (x < displ f n)%nat -> exists j, (j < n)%nat /\ (displ f j <= x < displ f j + f j)%nat.
Proof.
  intros f. induction n as [|n IH]; intros x H; [cbn in H; lia|]. rewrite displ_S in H.
  destruct (Nat.lt_ge_cases x (displ f n)) as [L|L]; [destruct (IH x L) as (j & Hj & K); exists j; split; [lia|exact K]|].
  exists n. lia.
Qed.

(** Allgatherv with contiguous types whose elements have the same size on both sides,
    and blocks that follow each other in the order of the ranks without gaps: a rank for
    which the call has ended has every rank's contribution in that rank's block, nothing
    else of its memory differs; MPI_IN_PLACE at any of the ranks.
    MISSING: other displacements and element sizes that differ, see below; types that are
    not contiguous, which end in an exception (finishVcollectiveOp). *)
Theorem mpi_allgatherv_partial : forall (A : Type) (dflt : A) n (cs : nat -> nat) (c : nat -> vcall) (ms junk : nat -> mem A) ops
    (buf : nat -> Z) (ty : nat -> dt) p res,
  (p < n)%nat ->
  (forall q, (q < n)%nat -> v_recv (c q) = PAt (buf q) /\ v_rt (c q) = Some (ty q) /\ solid (ty q) /\
     (forall j, (j < n)%nat -> nbytes (ty q) (v_rcnts (c q) j) = cs j /\ v_rdispls (c q) j = displ (v_rcnts (c q)) j) /\
     ((exists a d, v_send (c q) = PAt a /\ v_st (c q) = Some d /\ solid d /\ nbytes d 1 = nbytes (ty q) 1 /\
        nbytes d (v_scnts (c q) q) = cs q /\ a <> buf q) \/ v_send (c q) = PInPlace)) ->
  (forall q, (q < n)%nat -> allgatherv_op q (c q) (ms q) (junk q) = Some (ops q)) ->
  allgatherv_ends dflt n (v_bytes (v_rcnts (c p)) (ops p)) ops ms p res ->
  exists m', finishv (ops p) res (ms p) = Some m' /\
    holds_vblocks n (ty p) (v_rcnts (c p)) (v_rdispls (c p)) (buf p) (contributed_v dflt c ms) (ms p) m'.
Proof.
  intros A dflt n cs c ms junk ops buf ty p res Hp H Ho He.
  assert (Op : forall q, (q < n)%nat -> o_tr (ops q) = TPtr (PAt (buf q)) /\ msize (o_st (ops q)) = msize (build (ty q)) /\
    (exists a, o_ts (ops q) = TPtr (PAt a)) /\
    (same_buf (o_ts (ops q)) (o_tr (ops q)) = true <-> v_send (c q) = PInPlace) /\
    (v_send (c q) <> PInPlace -> forall i, (i < cs q)%nat -> content dflt (ms q) (o_ts (ops q)) i = contributed_v dflt c ms q i)).
  { intros q Hq. destruct (H q Hq) as (E3 & E4 & SO & _ & L). specialize (Ho q Hq). unfold allgatherv_op in Ho.
    destruct (solid_spec _ SO) as (_ & _ & C). unfold contributed_v.
    destruct L as [(a & d & E1 & E2 & SD & N1 & NS & AB)|E1].
    - destruct (solid_spec _ SD) as (_ & _ & CD). rewrite E1, E2, E3, E4 in Ho.
      rewrite (start_both false q {| c_send := PAt a; c_scnt := v_scnts (c q) q; c_st := Some d; c_recv := PAt (buf q); c_rcnt := 0; c_rt := Some (ty q) |}
        (ms q) (junk q) a d (buf q) (ty q) eq_refl eq_refl eq_refl eq_refl) in Ho. injection Ho as <-. cbn [o_tr o_ts o_st c_scnt c_rcnt].
      unfold mk_tr, mk_ts. rewrite C, CD. split; [reflexivity|]. split; [rewrite !nbytes_eq in N1; lia|]. split; [now exists a|]. split.
      + rewrite E1. unfold same_buf. split; [intros K; apply Z.eqb_eq in K; contradiction|discriminate].
      + intros _ i Hi. rewrite E1, E2. rewrite solid_data by (auto; lia). reflexivity.
    - rewrite E1, E3, E4 in Ho.
      rewrite (start_in_place false q {| c_send := PInPlace; c_scnt := v_scnts (c q) q; c_st := v_st (c q); c_recv := PAt (buf q); c_rcnt := 0; c_rt := Some (ty q) |}
        (ms q) (junk q) (buf q) (ty q) eq_refl eq_refl eq_refl C) in Ho. injection Ho as <-. cbn [o_tr o_ts o_st].
      split; [reflexivity|]. split; [reflexivity|]. split; [eexists; reflexivity|]. split.
      + split; [auto|]. intros _. unfold same_buf. apply Z.eqb_eq. lia.
      + intros K. contradiction. }
  assert (Cs : forall q j, (q < n)%nat -> (j < n)%nat -> v_bytes (v_rcnts (c q)) (ops q) j = cs j).
  { intros q j Hq Hj. destruct (H q Hq) as (_ & _ & _ & K & _). destruct (K j Hj) as (K1 & _). destruct (Op q Hq) as (_ & M & _).
    unfold v_bytes. rewrite M, <- nbytes_eq. exact K1. }
  set (cb := v_bytes (v_rcnts (c p)) (ops p)) in *.
  assert (Rcv : forall q i, (q < n)%nat -> rcv_of dflt ops ms q i = ms q (buf q + Z.of_nat i)).
  { intros q i Hq. unfold rcv_of. destruct (Op q Hq) as (-> & _). reflexivity. }
  destruct (H p Hp) as (E3 & E4 & SO & CD & _). destruct (solid_spec _ SO) as (Tm & X & C).
  assert (D : forall q, (q < n)%nat -> dext (ty q) = Z.of_nat (msize (build (ty q)))).
  { intros q Hq. destruct (H q Hq) as (_ & _ & SQ & _). destruct (solid_spec _ SQ) as (TQ & _). unfold dext. rewrite TQ at 1. apply hull_zseq. }
  assert (Dis : forall q j, (q < n)%nat -> (j < n)%nat -> Z.of_nat (v_rdispls (c q) j) * dext (ty q) = Z.of_nat (displ cb j)).
  { intros q j Hq Hj. destruct (H q Hq) as (_ & _ & _ & K & _). destruct (K j Hj) as (_ & ->). rewrite D by exact Hq.
    rewrite <- Nat2Z.inj_mul, <- displ_mul. f_equal. apply displ_ext. intros i Hi. unfold cb. rewrite (Cs p i Hp ltac:(lia)).
    destruct (K i ltac:(lia)) as (<- & _). now rewrite nbytes_eq. }
  assert (Cp : forall q i, (q < n)%nat -> (i < cs q)%nat ->
    match src_of dflt ops ms q with None => rcv_of dflt ops ms q (displ cb q + i)%nat | Some b => b i end = contributed_v dflt c ms q i).
  { intros q i Hq Hi. unfold src_of. destruct (Op q Hq) as (_ & _ & _ & SB & CT).
    destruct (same_buf (o_ts (ops q)) (o_tr (ops q))) eqn:S1.
    - destruct SB as (SB & _). specialize (SB eq_refl). clear S1. rename SB into S1.
      rewrite Rcv by exact Hq. destruct (H q Hq) as (F3 & F4 & SQ & K & _). unfold contributed_v. rewrite S1, F3, F4.
      destruct (K q Hq) as (K1 & _). rewrite solid_data by (auto; lia). f_equal. rewrite (Dis q q Hq Hq). lia.
    - apply CT; [|exact Hi]. intros K. apply SB in K. discriminate. }
  assert (R : (forall j i, (j < n)%nat -> (i < cs j)%nat -> res (displ cb j + i)%nat = contributed_v dflt c ms j i) /\
              (forall i, (displ cb n <= i)%nat -> res i = ms p (buf p + Z.of_nat i))).
  { unfold allgatherv_ends in He. destruct (Nat.eqb_spec n 1) as [->|Hn].
    - assert (p = 0%nat) by lia. subst p. pose proof (Cs 0%nat 0%nat ltac:(lia) ltac:(lia)) as C0. fold cb in C0. rewrite He. unfold skipped.
      rewrite displ_S. cbn [displ seq map list_sum fold_right]. split.
      + intros j i Hj Hi. assert (j = 0%nat) by lia. subst j. unfold displ. cbn [seq map list_sum fold_right Nat.add].
        rewrite (bwrite_in _ _ _ _ dflt) by (rewrite bread_length; lia). rewrite nth_bread by lia. rewrite Nat.sub_0_r, Nat.add_0_l.
        rewrite <- (Cp 0%nat i ltac:(lia) Hi). unfold src_of, snd_of.
        destruct (same_buf (o_ts (ops 0%nat)) (o_tr (ops 0%nat))) eqn:S1; [|reflexivity].
        unfold rcv_of, displ. cbn [seq map list_sum fold_right Nat.add].
        destruct (Op 0%nat ltac:(lia)) as (T1 & _ & (a & T2) & _). rewrite T1, T2 in *. cbn [same_buf] in S1. apply Z.eqb_eq in S1. now subst a.
      + intros i Hi. rewrite bwrite_out by (rewrite bread_length; unfold displ in Hi; cbn in Hi; lia). now apply Rcv.
    - destruct He as (k & cf & Hx & Hd & ->).
      destruct (allgatherv_delivers_all_blocks A n cb _ _ k cf p ltac:(lia) Hx Hp Hd) as (R1 & R2). split.
      + intros j i Hj Hi. rewrite R1 by (auto; unfold cb; rewrite Cs by assumption; exact Hi). unfold contribution_v. now apply Cp.
      + intros i Hi. rewrite R2 by exact Hi. now apply Rcv. }
  destruct R as (R1 & R2).
  destruct (Op p Hp) as (T1 & _ & (a & T2) & _). unfold finishv. rewrite T1, T2. eexists. split; [reflexivity|].
  unfold finish. rewrite T1. split.
  - intros j i Hj Hi. rewrite solid_data by assumption. rewrite (Dis p j Hp Hj).
    destruct (CD j Hj) as (CJ & _). rewrite CJ in Hi.
    destruct (Z.ltb_spec (buf p + Z.of_nat (displ cb j) + Z.of_nat i) (buf p)); [lia|].
    rewrite <- (R1 j i Hj Hi). f_equal. lia.
  - intros x Hx. destruct (Z.ltb_spec x (buf p)) as [|L]; [reflexivity|].
    destruct (Nat.lt_ge_cases (Z.to_nat (x - buf p)) (displ cb n)) as [Lt|Ge].
    + exfalso. destruct (displ_find cb n _ Lt) as (j & Hj & K). apply (Hx j Hj). rewrite (Dis p j Hp Hj).
      rewrite solid_tmapn by exact SO. destruct (CD j Hj) as (-> & _). rewrite <- (Cs p j Hp Hj). fold cb.
      unfold zseq. apply in_map_iff. exists (Z.to_nat (x - buf p) - displ cb j)%nat. split; [lia|]. apply in_seq. lia.
    + rewrite R2 by exact Ge. f_equal. lia.
Qed.
Print Assumptions mpi_allgatherv_partial.

(** Types that are not contiguous, on either side: the call never returns normally,
    whatever the engine left behind. *)
Theorem mpi_vcollective_layout_rejected : forall (A : Type) rank (c : vcall) (m junk : mem A) o a d b e res,
  v_send c = PAt a -> v_st c = Some d -> v_recv c = PAt b -> v_rt c = Some e ->
  mcontig (build d) = false \/ mcontig (build e) = false ->
  allgatherv_op rank c m junk = Some o \/ alltoallv_op rank c m junk = Some o -> finishv o res m = None.
Proof.
  intros A rank c m junk o a d b e res E1 E2 E3 E4 N Ho. unfold allgatherv_op, alltoallv_op in Ho. rewrite E1, E2, E3, E4 in Ho.
  destruct Ho as [Ho|Ho]; unfold start in Ho; cbn [c_send c_st c_recv c_rt c_scnt c_rcnt is_null negb andb] in Ho;
    destruct (mcontig (build d)), (mcontig (build e)); cbn [negb pack_at option_map] in Ho; injection Ho as <-;
    unfold finishv; cbn [o_tr o_ts]; try reflexivity; destruct N; discriminate.
Qed.
Print Assumptions mpi_vcollective_layout_rejected.

(** ** Where it goes wrong *)
Lemma allgatherv_run : forall n counts (dst : nat -> nat -> nat) src, (0 < n)%nat ->
  exists k c, rexec (av_sched n counts dst src) k c /\ forall p, (p < n)%nat -> l_rnd (r_loc c p) = sc_nr (av_sched n counts dst src).
Proof.
  intros n counts dst src Hn.
  assert (E : sc_nr (av_sched n counts dst src) = log2_of n) by (cbn [sc_nr av_sched]; apply (proj1 (AvProof.av_dag_form n counts Hn 0 Hn))).
  rewrite E.
  assert (H : forall m k c, rexec (av_sched n counts dst src) k c -> (m + k = 4 * log2_of n * n)%nat ->
    exists k' c', rexec (av_sched n counts dst src) k' c' /\ forall p, (p < n)%nat -> l_rnd (r_loc c' p) = log2_of n).
  { induction m as [|m IH]; intros k c Hx Hk.
    - destruct (allgatherv_terminates nat n counts dst src k c Hn Hx) as (_ & [H|(c' & H)]).
      + exists k, c. auto.
      + destruct (allgatherv_terminates nat n counts dst src (S k) c' Hn (rxS _ _ _ _ Hx H)) as (Hb & _). lia.
    - destruct (allgatherv_terminates nat n counts dst src k c Hn Hx) as (_ & [H|(c' & H)]).
      + exists k, c. auto.
      + apply (IH (S k) c' (rxS _ _ _ _ Hx H)). lia. }
  apply (H (4 * log2_of n * n)%nat 0%nat _ (rx0 _)). lia.
Qed.

(** Displacements with a gap: the second block is stored behind the first one, into the
    gap. *)
Definition gap_call : vcall := {| v_send := PAt 100; v_scnts := fun _ => 1%nat; v_sdispls := fun _ => 0%nat; v_st := Some (DPrim 1);
  v_recv := PAt 0; v_rcnts := fun _ => 1%nat; v_rdispls := fun j => (2 * j)%nat; v_rt := Some (DPrim 1) |}.

Theorem mpi_allgatherv_displs_refuted : exists n (c : nat -> vcall) (ms junk : nat -> mem nat) ops p res m' buf ty,
  (forall q, (q < n)%nat -> v_recv (c q) = PAt buf /\ v_rt (c q) = Some ty /\ v_st (c q) = Some ty /\ v_scnts (c q) q = v_rcnts (c p) q /\
     allgatherv_op q (c q) (ms q) (junk q) = Some (ops q)) /\
  NoDup (flat_map (fun j => map (fun x => Z.of_nat (v_rdispls (c p) j) + x) (tmapn ty (v_rcnts (c p) j))) (seq 0 n)) /\
  (p < n)%nat /\ allgatherv_ends 0%nat n (v_bytes (v_rcnts (c p)) (ops p)) ops ms p res /\ finishv (ops p) res (ms p) = Some m' /\
  (exists j i, (j < n)%nat /\ (i < nbytes ty (v_rcnts (c p) j))%nat /\
    data ty (v_rcnts (c p) j) m' (buf + Z.of_nat (v_rdispls (c p) j) * dext ty) i <> contributed_v 0%nat c ms j i) /\
  (exists x, (forall j, (j < n)%nat -> ~ In (x - (buf + Z.of_nat (v_rdispls (c p) j) * dext ty)) (tmapn ty (v_rcnts (c p) j))) /\ m' x <> ms p x).
Proof.
  set (ops := fun q => the (allgatherv_op q gap_call (umem q) (ujunk q))). set (cs := fun _ : nat => 1%nat).
  destruct (allgatherv_run 2 (v_bytes cs (ops 0%nat)) (rcv_of 0%nat ops umem) (src_of 0%nat ops umem) ltac:(lia)) as (k & cf & Hx & Hd).
  destruct (allgatherv_delivers_all_blocks nat 2 _ _ _ k cf 0 ltac:(lia) Hx ltac:(lia) (Hd 0%nat ltac:(lia))) as (R1 & R2).
  exists 2%nat, (fun _ => gap_call), umem, ujunk, ops, 0%nat, (av_finalize 2 (v_bytes cs (ops 0%nat)) 0 (l_mem (r_loc cf 0))),
    (finish (ops 0%nat) (av_finalize 2 (v_bytes cs (ops 0%nat)) 0 (l_mem (r_loc cf 0))) (umem 0)), 0, (DPrim 1).
  split; [intros q _; repeat split|]. split; [vm_compute; repeat constructor; cbn; intuition discriminate|]. split; [lia|].
  split; [exists k, cf; split; [exact Hx|split; [apply Hd; lia|reflexivity]]|]. split; [reflexivity|].
  assert (F : forall i, finish (ops 0%nat) (av_finalize 2 (v_bytes cs (ops 0%nat)) 0 (l_mem (r_loc cf 0))) (umem 0) (Z.of_nat i) =
    av_finalize 2 (v_bytes cs (ops 0%nat)) 0 (l_mem (r_loc cf 0)) i).
  { intros i. change (finish (ops 0%nat) (av_finalize 2 (v_bytes cs (ops 0%nat)) 0 (l_mem (r_loc cf 0))) (umem 0) (Z.of_nat i)) with
      (if Z.of_nat i <? 0 then umem 0 (Z.of_nat i) else av_finalize 2 (v_bytes cs (ops 0%nat)) 0 (l_mem (r_loc cf 0)) (Z.to_nat (Z.of_nat i - 0))).
    destruct (Z.ltb_spec (Z.of_nat i) 0); [lia|]. f_equal. lia. }
  split.
  - exists 1%nat, 0%nat. split; [lia|]. split; [vm_compute; lia|]. unfold data.
    change (0 + Z.of_nat (v_rdispls gap_call 1) * dext (DPrim 1) + nth 0 (tmapn (DPrim 1) (v_rcnts gap_call 1)) 0) with (Z.of_nat 2).
    rewrite F, R2 by (vm_compute; lia). vm_compute. discriminate.
  - exists (Z.of_nat 1). split.
    + intros [|[|j]] Hj; [vm_compute; intuition discriminate|vm_compute; intuition discriminate|lia].
    + rewrite F. pose proof (R1 1%nat 0%nat ltac:(lia) ltac:(vm_compute; lia)) as R.
      change (displ (v_bytes cs (ops 0%nat)) 1 + 0)%nat with 1%nat in R. rewrite R. vm_compute. discriminate.
Qed.
Print Assumptions mpi_allgatherv_displs_refuted.

(** Two bytes sent as MPI_BYTEs and received as one element of two bytes: the engine is
    told the number of receive elements and the size of a send element, so that only one
    byte of each block moves. *)
Definition mixed_call : vcall := {| v_send := PAt 100; v_scnts := fun _ => 2%nat; v_sdispls := fun _ => 0%nat; v_st := Some (DPrim 1);
  v_recv := PAt 0; v_rcnts := fun _ => 1%nat; v_rdispls := fun j => j; v_rt := Some (DPrim 2) |}.

Theorem mpi_allgatherv_types_refuted : exists n (c : nat -> vcall) (ms junk : nat -> mem nat) ops p res m' buf ty,
  (forall q, (q < n)%nat -> v_recv (c q) = PAt buf /\ v_rt (c q) = Some ty /\
     (exists d, v_st (c q) = Some d /\ solid d /\ forall r, (r < n)%nat -> nbytes ty (v_rcnts (c r) q) = nbytes d (v_scnts (c q) q)) /\
     (forall j, (j < n)%nat -> v_rdispls (c q) j = displ (v_rcnts (c q)) j) /\
     allgatherv_op q (c q) (ms q) (junk q) = Some (ops q)) /\ solid ty /\
  (p < n)%nat /\ allgatherv_ends 0%nat n (v_bytes (v_rcnts (c p)) (ops p)) ops ms p res /\ finishv (ops p) res (ms p) = Some m' /\
  exists j i, (j < n)%nat /\ (i < nbytes ty (v_rcnts (c p) j))%nat /\
    data ty (v_rcnts (c p) j) m' (buf + Z.of_nat (v_rdispls (c p) j) * dext ty) i <> contributed_v 0%nat c ms j i.
Proof.
  set (ops := fun q => the (allgatherv_op q mixed_call (umem q) (ujunk q))). set (cs := fun _ : nat => 1%nat).
  destruct (allgatherv_run 2 (v_bytes cs (ops 0%nat)) (rcv_of 0%nat ops umem) (src_of 0%nat ops umem) ltac:(lia)) as (k & cf & Hx & Hd).
  destruct (allgatherv_delivers_all_blocks nat 2 _ _ _ k cf 0 ltac:(lia) Hx ltac:(lia) (Hd 0%nat ltac:(lia))) as (R1 & R2).
  exists 2%nat, (fun _ => mixed_call), umem, ujunk, ops, 0%nat, (av_finalize 2 (v_bytes cs (ops 0%nat)) 0 (l_mem (r_loc cf 0))),
    (finish (ops 0%nat) (av_finalize 2 (v_bytes cs (ops 0%nat)) 0 (l_mem (r_loc cf 0))) (umem 0)), 0, (DPrim 2).
  split. { intros q _. split; [reflexivity|]. split; [reflexivity|]. split; [exists (DPrim 1); repeat split; cbn; lia|].
    split; [intros [|[|j]] Hj; [reflexivity|reflexivity|lia]|reflexivity]. }
  split; [cbn; lia|]. split; [lia|].
  split; [exists k, cf; split; [exact Hx|split; [apply Hd; lia|reflexivity]]|]. split; [reflexivity|].
  exists 1%nat, 0%nat. split; [lia|]. split; [vm_compute; lia|].
  change (data (DPrim 2) (v_rcnts mixed_call 1) (finish (ops 0%nat) (av_finalize 2 (v_bytes cs (ops 0%nat)) 0 (l_mem (r_loc cf 0))) (umem 0))
    (0 + Z.of_nat (v_rdispls mixed_call 1) * dext (DPrim 2)) 0) with (av_finalize 2 (v_bytes cs (ops 0%nat)) 0 (l_mem (r_loc cf 0)) 2%nat).
  rewrite R2 by (vm_compute; lia). vm_compute. discriminate.
Qed.
Print Assumptions mpi_allgatherv_types_refuted.

(** ** Alltoallv *)

(** Every execution ends, under every mix of eager and other messages; it ends only
    when all sends and receives of all ranks have completed. *)
Theorem alltoallv_terminates : forall T n (src : nat -> nat -> T) sc rc eager mem0 k c,
  dex n src sc rc eager mem0 k c ->
  (k <= 4 * (n * n))%nat /\ ((forall c', ~ dst n src sc rc eager c c') -> forall p, (p < n)%nat -> d_over n c p).
Proof.
  intros T n src sc rc eager mem0 k c Hx. destruct (dex_inv n src sc rc eager mem0 k c Hx) as (I & F). split.
  - unfold flags in F. pose proof (cnt2_le (d_ss c) n n). pose proof (cnt2_le (d_sd c) n n).
    pose proof (cnt2_le (d_rs c) n n). pose proof (cnt2_le (d_rd c) n n). lia.
  - intros Hs p Hp q Hq. split.
    + destruct (reach n p q Hp Hq) as (i & Hi & <-). now apply (stuck_done n src sc rc eager mem0).
    + destruct (reach n q p Hq Hp) as (i & Hi & E). rewrite <- E at 1. now apply (stuck_done n src sc rc eager mem0).
Qed.
Print Assumptions alltoallv_terminates.

(** Every rank sends every rank (itself included) one message with the number of bytes
    its counts say, never a second one; a rank that is done has sent all of its own and
    received one from every rank. *)
Theorem alltoallv_traffic : forall T n (src : nat -> nat -> T) sc rc eager mem0 k c,
  dex n src sc rc eager mem0 k c ->
  NoDup (map fst (d_sent c)) /\
  (forall p q s, In (p, q, s) (d_sent c) -> (p < n)%nat /\ (q < n)%nat /\ s = sc p q) /\
  (forall p, (p < n)%nat -> d_over n c p -> forall q, (q < n)%nat -> In (p, q, sc p q) (d_sent c) /\ In (q, p, sc q p) (d_sent c)).
Proof.
  intros T n src sc rc eager mem0 k c Hx. destruct (dex_inv n src sc rc eager mem0 k c Hx) as (I & _). split; [exact (dv_once _ _ _ _ _ _ I)|]. split.
  - intros p q s K. apply (dv_sent _ _ _ _ _ _ I) in K. intuition.
  - intros p Hp Hd q Hq. destruct (Hd q Hq) as (D1 & D2). split; apply (dv_sent _ _ _ _ _ _ I).
    + split; [reflexivity|]. split; [now apply (dv_sd _ _ _ _ _ _ I)|auto].
    + destruct (dv_rd _ _ _ _ _ _ I q p D2) as (K & _). auto.
Qed.
Print Assumptions alltoallv_traffic.

(** What is in the result buffer at the end: every byte below the longest block is that
    byte of the send buffer of some rank whose block is long enough; all blocks are
    taken from the start of the send buffer and put at the start of the receive buffer. *)
Theorem alltoallv_result : forall T n (src : nat -> nat -> T) sc rc eager mem0 k c p i,
  dex n src sc rc eager mem0 k c -> (p < n)%nat -> d_over n c p ->
  ((forall q, (q < n)%nat -> (Nat.min (rc p q) (sc q p) <= i)%nat) -> d_mem c p i = mem0 p i) /\
  (forall q, (q < n)%nat -> (i < Nat.min (rc p q) (sc q p))%nat ->
     exists q', (q' < n)%nat /\ (i < Nat.min (rc p q') (sc q' p))%nat /\ d_mem c p i = src q' i).
Proof.
  intros T n src sc rc eager mem0 k c p i Hx Hp Hd. destruct (dex_inv n src sc rc eager mem0 k c Hx) as (I & _).
  destruct (dv_mem _ _ _ _ _ _ I p i Hp) as [(V & O)|(q & Hq & _ & L & V)].
  - split; [auto|]. intros q Hq Hi. specialize (O q (proj2 (Hd q Hq))). unfold len in O. lia.
  - split; [intros H; specialize (H q Hq); unfold len in L; lia|]. intros _ _ _. exists q. auto.
Qed.
Print Assumptions alltoallv_result.

(** MPI_Alltoallv when rank [p] gets data from one rank [q] only, both displacements
    being 0 (and everybody else may do whatever it likes): correct. Contiguous types of
    the same element size on both sides.
    MISSING: everything else, see below. *)
Theorem mpi_alltoallv_partial : forall (A : Type) (dflt : A) n (c : nat -> vcall) (ms junk : nat -> mem A) ops eager
    (sbuf buf : nat -> Z) (sty ty : nat -> dt) p q res,
  (p < n)%nat -> (q < n)%nat ->
  (forall r, (r < n)%nat -> v_send (c r) = PAt (sbuf r) /\ v_st (c r) = Some (sty r) /\ solid (sty r) /\
     v_recv (c r) = PAt (buf r) /\ v_rt (c r) = Some (ty r) /\ solid (ty r) /\ nbytes (sty r) 1 = nbytes (ty r) 1) ->
  (forall j, (j < n)%nat -> j <> q -> v_rcnts (c p) j = 0%nat) -> v_rdispls (c p) q = 0%nat -> v_sdispls (c q) p = 0%nat ->
  nbytes (ty p) (v_rcnts (c p) q) = nbytes (sty q) (v_scnts (c q) p) ->
  (forall r, (r < n)%nat -> alltoallv_op r (c r) (ms r) (junk r) = Some (ops r)) ->
  alltoallv_ends dflt n (fun r => v_bytes (v_scnts (c r)) (ops r)) (fun r => v_bytes (v_rcnts (c r)) (ops r)) eager ops ms p res ->
  exists m', finishv (ops p) res (ms p) = Some m' /\
    holds_vblocks n (ty p) (v_rcnts (c p)) (v_rdispls (c p)) (buf p)
      (fun j i => data (sty j) (v_scnts (c j) p) (ms j) (sbuf j + Z.of_nat (v_sdispls (c j) p) * dext (sty j)) i) (ms p) m'.
Proof.
  intros A dflt n c ms junk ops eager sbuf buf sty ty p q res Hp Hq H Hz Hdp Hdq Hb Ho He.
  assert (Op : forall r, (r < n)%nat -> o_ts (ops r) = TPtr (PAt (sbuf r)) /\ o_tr (ops r) = TPtr (PAt (buf r)) /\
     msize (o_st (ops r)) = msize (build (sty r)) /\ msize (build (sty r)) = msize (build (ty r))).
  { intros r Hr. destruct (H r Hr) as (E1 & E2 & S1 & E3 & E4 & S2 & NB). specialize (Ho r Hr). unfold alltoallv_op in Ho. rewrite E1, E2, E3, E4 in Ho.
    rewrite (start_both false r {| c_send := PAt (sbuf r); c_scnt := 0; c_st := Some (sty r); c_recv := PAt (buf r); c_rcnt := 0; c_rt := Some (ty r) |}
      (ms r) (junk r) (sbuf r) (sty r) (buf r) (ty r) eq_refl eq_refl eq_refl eq_refl) in Ho. injection Ho as <-. cbn [o_tr o_ts o_st c_scnt c_rcnt].
    unfold mk_tr, mk_ts. destruct (solid_spec _ S1) as (_ & _ & ->). destruct (solid_spec _ S2) as (_ & _ & ->).
    rewrite !nbytes_eq in NB. repeat split. lia. }
  destruct (Op p Hp) as (P1 & P2 & P3 & P4). destruct (Op q Hq) as (Q1 & Q2 & Q3 & _).
  destruct (H p Hp) as (_ & _ & _ & _ & _ & Sp & _). destruct (H q Hq) as (_ & _ & Sq & _).
  set (rc := fun r => v_bytes (v_rcnts (c r)) (ops r)) in *. set (sc := fun r => v_bytes (v_scnts (c r)) (ops r)) in *.
  assert (Rq : rc p q = nbytes (ty p) (v_rcnts (c p) q)) by (unfold rc, v_bytes; rewrite nbytes_eq, P3, P4; reflexivity).
  assert (Sqp : sc q p = nbytes (ty p) (v_rcnts (c p) q)) by (unfold sc, v_bytes; rewrite Hb, nbytes_eq, Q3; reflexivity).
  assert (Rz : forall j, (j < n)%nat -> j <> q -> rc p j = 0%nat) by (intros j Hj N; unfold rc, v_bytes; now rewrite Hz).
  assert (R : (forall i, (i < nbytes (ty p) (v_rcnts (c p) q))%nat -> res i = ms q (sbuf q + Z.of_nat i)) /\
              (forall i, (nbytes (ty p) (v_rcnts (c p) q) <= i)%nat -> res i = ms p (buf p + Z.of_nat i))).
  { assert (Sn : forall i, snd_of dflt ops ms q i = ms q (sbuf q + Z.of_nat i)) by (intros i; unfold snd_of; rewrite Q1; reflexivity).
    assert (Rn : forall i, rcv_of dflt ops ms p i = ms p (buf p + Z.of_nat i)) by (intros i; unfold rcv_of; rewrite P2; reflexivity).
    unfold alltoallv_ends in He. destruct (Nat.eqb_spec n 1) as [->|Hn].
    - assert (p = 0%nat) by lia. assert (q = 0%nat) by lia. subst p q. rewrite He. unfold skipped. rewrite Sqp. split; intros i Hi.
      + rewrite (bwrite_in _ _ _ _ dflt) by (rewrite bread_length; lia). rewrite nth_bread by lia. rewrite Sn. do 2 f_equal. lia.
      + rewrite bwrite_out by (rewrite bread_length; lia). apply Rn.
    - destruct He as (k & cf & Hx & Hd & ->). split; intros i Hi;
        destruct (alltoallv_result A n _ sc rc eager _ k cf p i Hx Hp Hd) as (O1 & O2).
      + destruct (O2 q Hq ltac:(lia)) as (q' & Hq' & L & ->). destruct (Nat.eq_dec q' q) as [->|N]; [apply Sn|].
        rewrite Rz in L by assumption. lia.
      + rewrite O1; [apply Rn|]. intros j Hj. destruct (Nat.eq_dec j q) as [->|N]; [lia|]. rewrite Rz by assumption. lia. }
  destruct R as (R1 & R2).
  destruct (finish_solid (ops p) res (ms p) (buf p) (ty p) (v_rcnts (c p) q) Sp P2 R2) as (F1 & F2).
  unfold finishv. rewrite P2, P1. eexists. split; [reflexivity|]. split.
  - intros j i Hj Hi. destruct (Nat.eq_dec j q) as [->|N].
    + rewrite Hdp, Hdq. cbn [Z.of_nat]. rewrite !Z.mul_0_l, !Z.add_0_r. rewrite F1, R1 by exact Hi.
      rewrite solid_data; auto. now rewrite <- Hb.
    + rewrite Hz in Hi by assumption. rewrite nbytes_eq in Hi. lia.
  - intros x Hx. apply F2. specialize (Hx q Hq). rewrite Hdp in Hx. cbn [Z.of_nat] in Hx. rewrite Z.mul_0_l, Z.add_0_r in Hx. exact Hx.
Qed.
Print Assumptions mpi_alltoallv_partial.

Lemma dst_dec : forall n (src : nat -> nat -> nat) sc rc eager mem0 k c, dex n src sc rc eager mem0 k c ->
  (exists c', dst n src sc rc eager c c') \/ (forall p, (p < n)%nat -> d_over n c p).
Proof.
  intros n src sc rc eager mem0 k c Hx. destruct (dex_inv n src sc rc eager mem0 k c Hx) as (I & _).
  assert (Dec : forall p i, (p < n)%nat -> (i < n)%nat -> (exists c', dst n src sc rc eager c c') \/ (d_ss c p (send_to n p i) = true) \/
    ((3 <= i)%nat /\ d_sd c p (send_prev n (send_to n p i)) = false)).
  { intros p i Hp Hi. destruct (d_ss c p (send_to n p i)) eqn:E; [auto|].
    destruct (Nat.lt_ge_cases i 3) as [L|L]; [left; eexists; apply (d_send n src sc rc eager c p i (send_to n p i) Hp Hi eq_refl E); auto|].
    destruct (d_sd c p (send_prev n (send_to n p i))) eqn:E2; [left; eexists; apply (d_send n src sc rc eager c p i (send_to n p i) Hp Hi eq_refl E); auto|auto]. }
  assert (Dec2 : forall p i, (p < n)%nat -> (i < n)%nat -> (exists c', dst n src sc rc eager c c') \/ (d_rs c p (recv_from n p i) = true) \/
    ((3 <= i)%nat /\ d_rd c p (recv_prev n (recv_from n p i)) = false)).
  { intros p i Hp Hi. destruct (d_rs c p (recv_from n p i)) eqn:E; [auto|].
    destruct (Nat.lt_ge_cases i 3) as [L|L]; [left; eexists; apply (d_post n src sc rc eager c p i (recv_from n p i) Hp Hi eq_refl E); auto|].
    destruct (d_rd c p (recv_prev n (recv_from n p i))) eqn:E2; [left; eexists; apply (d_post n src sc rc eager c p i (recv_from n p i) Hp Hi eq_refl E); auto|auto]. }
  assert (G : forall i, (i < n)%nat -> (exists c', dst n src sc rc eager c c') \/
    forall p, (p < n)%nat -> d_sd c p (send_to n p i) = true /\ d_rd c (send_to n p i) p = true).
  { intros i. induction i as [i IH] using lt_wf_ind. intros Hi.
    assert (P : forall m, (m <= n)%nat -> (exists c', dst n src sc rc eager c c') \/
      forall p, (p < m)%nat -> d_sd c p (send_to n p i) = true /\ d_rd c (send_to n p i) p = true).
    { induction m as [|m IHm]; intros Hm; [right; intros; lia|]. destruct (IHm ltac:(lia)) as [|IHm']; [auto|].
      assert (Hmn : (m < n)%nat) by lia. set (q := send_to n m i). assert (Hq : (q < n)%nat) by (apply send_to_lt; lia).
      assert (Hprev : (exists c', dst n src sc rc eager c c') \/ ((3 <= i)%nat -> forall p, (p < n)%nat ->
         d_sd c p (send_to n p (i - 3)) = true /\ d_rd c (send_to n p (i - 3)) p = true)).
      { destruct (Nat.lt_ge_cases i 3); [right; intros; lia|]. destruct (IH (i - 3)%nat ltac:(lia) ltac:(lia)); auto. }
      destruct Hprev as [|Hprev]; [auto|].
      destruct (Dec m i Hmn Hi) as [|[Hss|(L & E)]]; [auto| |].
      2:{ rewrite prev_send in E by auto. destruct (Hprev L m Hmn). congruence. }
      destruct (Dec2 q i Hq Hi) as [|[Hrs|(L & E)]]; [auto| |].
      2:{ rewrite prev_recv in E by auto. destruct (reach_from n q (recv_from n q (i - 3)) ltac:(apply recv_from_lt; lia) Hq) as (i' & Hi' & E1 & E2).
          destruct (Hprev L (recv_from n q (i - 3)) ltac:(apply recv_from_lt; lia)) as (_ & K).
          assert (E3 : send_to n (recv_from n q (i - 3)) (i - 3) = q).
          { unfold recv_from, send_to. rewrite (mod_cases n (q + n - (i - 3))) by lia.
            destruct (Nat.ltb_spec (q + n - (i - 3)) n); [|destruct (Nat.ltb_spec (q + n - (i - 3)) (2 * n)); [|lia]];
            rewrite mod_cases by lia; repeat match goal with |- context[(?a <? ?b)%nat] => destruct (Nat.ltb_spec a b) end; lia. }
          rewrite E3 in K. congruence. }
      unfold q in Hrs at 2. rewrite from_to in Hrs by auto. fold q in Hss.
      destruct (d_rd c q m) eqn:Hrd.
      - destruct (d_sd c m q) eqn:Hsd; [|left; eexists; eapply (d_done n src sc rc eager c m q); auto].
        right. intros p Hp. destruct (Nat.eq_dec p m) as [->|N]; [auto|apply IHm'; lia].
      - left. pose proof (dv_msg _ _ _ _ _ _ I m q Hmn Hq) as M. rewrite Hss, Hrd in M. cbn [andb negb] in M. eexists. exact (d_recv n src sc rc eager c m q _ Hmn Hq M Hrs). }
    exact (P n (le_n n)). }
  assert (P : forall m, (m <= n)%nat -> (exists c', dst n src sc rc eager c c') \/
    forall i, (i < m)%nat -> forall p, (p < n)%nat -> d_sd c p (send_to n p i) = true /\ d_rd c (send_to n p i) p = true).
  { induction m as [|m IHm]; intros Hm; [right; intros; lia|]. destruct (IHm ltac:(lia)) as [|IHm']; [auto|].
    destruct (G m ltac:(lia)) as [|Gm]; [auto|]. right. intros i Hi p Hp. destruct (Nat.eq_dec i m) as [->|N]; [auto|apply IHm'; lia || exact Hp]. }
  destruct (P n (le_n n)) as [|Pn]; [auto|]. right. intros p Hp q Hq. split.
  - destruct (reach n p q Hp Hq) as (i & Hi & <-). now apply Pn.
  - destruct (reach n q p Hq Hp) as (i & Hi & E). rewrite <- E at 1. now apply Pn.
Qed.

Lemma alltoallv_run : forall n (src : nat -> nat -> nat) sc rc eager mem0,
  exists k c, dex n src sc rc eager mem0 k c /\ forall p, (p < n)%nat -> d_over n c p.
Proof.
  intros n src sc rc eager mem0.
  assert (H : forall m k c, dex n src sc rc eager mem0 k c -> (m + k = 4 * (n * n))%nat ->
    exists k' c', dex n src sc rc eager mem0 k' c' /\ forall p, (p < n)%nat -> d_over n c' p).
  { induction m as [|m IH]; intros k c Hx Hk; destruct (dst_dec n src sc rc eager mem0 k c Hx) as [(c' & H)|H]; eauto.
    - destruct (alltoallv_terminates nat n src sc rc eager mem0 (S k) c' (dexS _ _ _ _ _ _ _ _ _ Hx H)) as (B & _). lia.
    - apply (IH (S k) c' (dexS _ _ _ _ _ _ _ _ _ Hx H)). lia. }
  apply (H (4 * (n * n))%nat 0%nat _ (dex0 _ _ _ _ _ _)). lia.
Qed.

(** Two ranks, one byte for each: the second block never reaches its place. *)
Definition two_call : vcall := {| v_send := PAt 100; v_scnts := fun _ => 1%nat; v_sdispls := fun j => j; v_st := Some (DPrim 1);
  v_recv := PAt 0; v_rcnts := fun _ => 1%nat; v_rdispls := fun j => j; v_rt := Some (DPrim 1) |}.

Theorem mpi_alltoallv_refuted : exists n (c : nat -> vcall) (ms junk : nat -> mem nat) ops eager p res m' buf sbuf ty,
  (forall q, (q < n)%nat -> v_recv (c q) = PAt buf /\ v_rt (c q) = Some ty /\ v_send (c q) = PAt sbuf /\ v_st (c q) = Some ty /\
     (forall r, (r < n)%nat -> v_rcnts (c q) r = v_scnts (c r) q /\ v_rdispls (c q) r = displ (v_rcnts (c q)) r /\ v_sdispls (c q) r = displ (v_scnts (c q)) r) /\
     alltoallv_op q (c q) (ms q) (junk q) = Some (ops q)) /\ (p < n)%nat /\
  alltoallv_ends 0%nat n (fun r => v_bytes (v_scnts (c r)) (ops r)) (fun r => v_bytes (v_rcnts (c r)) (ops r)) eager ops ms p res /\
  finishv (ops p) res (ms p) = Some m' /\
  exists j i, (j < n)%nat /\ (i < nbytes ty (v_rcnts (c p) j))%nat /\
    data ty (v_rcnts (c p) j) m' (buf + Z.of_nat (v_rdispls (c p) j) * dext ty) i <>
    data ty (v_scnts (c j) p) (ms j) (sbuf + Z.of_nat (v_sdispls (c j) p) * dext ty) i.
Proof.
  set (ops := fun q => the (alltoallv_op q two_call (umem q) (ujunk q))).
  set (b := fun r : nat => v_bytes (fun _ => 1%nat) (ops r)). set (eg := fun _ _ : nat => true).
  destruct (alltoallv_run 2 (snd_of 0%nat ops umem) b b eg (rcv_of 0%nat ops umem)) as (k & cf & Hx & Hd).
  destruct (alltoallv_result nat 2 _ b b eg _ k cf 0 1 Hx ltac:(lia) (Hd 0%nat ltac:(lia))) as (R & _).
  exists 2%nat, (fun _ => two_call), umem, ujunk, ops, eg, 0%nat, (d_mem cf 0), (finish (ops 0%nat) (d_mem cf 0) (umem 0)), 0, 100, (DPrim 1).
  split. { intros q _. repeat split; destruct r as [|[|r]]; (reflexivity || lia). }
  split; [lia|]. split; [exists k, cf; split; [exact Hx|split; [apply Hd; lia|reflexivity]]|]. split; [reflexivity|].
  exists 1%nat, 0%nat. split; [lia|]. split; [vm_compute; lia|].
  change (data (DPrim 1) (v_rcnts two_call 1) (finish (ops 0%nat) (d_mem cf 0) (umem 0)) (0 + Z.of_nat (v_rdispls two_call 1) * dext (DPrim 1)) 0)
    with (d_mem cf 0%nat 1%nat). rewrite R; [vm_compute; discriminate|]. intros q Hq. vm_compute. lia.
Qed.
Print Assumptions mpi_alltoallv_refuted.

(** ** Concrete calls *)

(** Three ranks with 1, 0 and 2 bytes; rank 2 in place. *)
Definition av_cnt (j : nat) : nat := match j with 0%nat => 1%nat | 1%nat => 0%nat | _ => 2%nat end.
Definition av_call (q : nat) : vcall := {| v_send := if Nat.eqb q 2 then PInPlace else PAt 100; v_scnts := av_cnt; v_sdispls := fun _ => 0%nat; v_st := Some (DPrim 1);
  v_recv := if Nat.eqb q 2 then PAt 100 else PAt 0; v_rcnts := av_cnt; v_rdispls := displ av_cnt; v_rt := Some (DPrim 1) |}.
Example ex_mpi_allgatherv : exists res m', let ops := fun q => the (allgatherv_op q (av_call q) (umem q) (ujunk q)) in
  allgatherv_ends 0%nat 3 (v_bytes av_cnt (ops 1%nat)) ops umem 1 res /\ finishv (ops 1%nat) res (umem 1) = Some m' /\
  map m' [-1; 0; 1; 2; 3] = [0; 1; 22; 23; 0]%nat.
Proof.
  set (ops := fun q => the (allgatherv_op q (av_call q) (umem q) (ujunk q))).
  destruct (allgatherv_run 3 (v_bytes av_cnt (ops 1%nat)) (rcv_of 0%nat ops umem) (src_of 0%nat ops umem) ltac:(lia)) as (k & cf & Hx & Hd).
  set (res := av_finalize 3 (v_bytes av_cnt (ops 1%nat)) 1 (l_mem (r_loc cf 1))).
  assert (He : allgatherv_ends 0%nat 3 (v_bytes av_cnt (ops 1%nat)) ops umem 1 res).
  { exists k, cf. split; [exact Hx|]. split; [apply Hd; lia|reflexivity]. }
  destruct (mpi_allgatherv_partial nat 0%nat 3 av_cnt av_call umem ujunk ops (fun q => if Nat.eqb q 2 then 100 else 0) (fun _ => DPrim 1) 1 res ltac:(lia))
    as (m' & F & R & U).
  - intros q _. unfold av_call. cbn [v_recv v_rt v_rcnts v_rdispls v_send v_st v_scnts]. destruct (Nat.eqb_spec q 2) as [E|N].
    + split; [reflexivity|]. split; [reflexivity|]. split; [cbn; lia|]. split; [|now right]. intros j _. rewrite nbytes_eq. cbn [build msize]. split; [lia|reflexivity].
    + split; [reflexivity|]. split; [reflexivity|]. split; [cbn; lia|]. split; [intros j _; rewrite nbytes_eq; cbn [build msize]; split; [lia|reflexivity]|].
      left. exists 100, (DPrim 1). split; [reflexivity|]. split; [reflexivity|]. split; [cbn; lia|]. split; [reflexivity|]. rewrite nbytes_eq. cbn [build msize]. lia.
  - intros q _. unfold ops, av_call, allgatherv_op. cbn [v_recv v_send v_st v_rt v_scnts]. destruct (Nat.eqb q 2); reflexivity.
  - exact He.
  - exists res, m'. split; [exact He|]. split; [exact F|].
    pose proof (R 0%nat 0%nat ltac:(lia) ltac:(vm_compute; lia)) as R0. pose proof (R 2%nat 0%nat ltac:(lia) ltac:(vm_compute; lia)) as R1.
    pose proof (R 2%nat 1%nat ltac:(lia) ltac:(vm_compute; lia)) as R2. unfold data in R0, R1, R2. cbn in R0, R1, R2.
    cbn [map]. rewrite R0, R1, R2, !U; [reflexivity| |]; intros [|[|[|j]]] Hj; vm_compute; intuition (discriminate || lia).
Qed.

(** Five ranks; everybody sends two bytes to the rank two further on. *)
Definition rot_call (q : nat) : vcall := {| v_send := PAt 100; v_scnts := fun j => if Nat.eqb j ((q + 2) mod 5) then 2%nat else 0%nat; v_sdispls := fun _ => 0%nat; v_st := Some (DPrim 1);
  v_recv := PAt 0; v_rcnts := fun j => if Nat.eqb j ((q + 3) mod 5) then 2%nat else 0%nat; v_rdispls := fun _ => 0%nat; v_rt := Some (DPrim 1) |}.
Example ex_mpi_alltoallv : exists res m', let ops := fun q => the (alltoallv_op q (rot_call q) (umem q) (ujunk q)) in
  alltoallv_ends 0%nat 5 (fun r => v_bytes (v_scnts (rot_call r)) (ops r)) (fun r => v_bytes (v_rcnts (rot_call r)) (ops r)) (fun p q => Nat.even (p + q)) ops umem 1 res /\
  finishv (ops 1%nat) res (umem 1) = Some m' /\ map m' [-1; 0; 1; 2] = [0; 41; 42; 0]%nat.
Proof.
  set (ops := fun q => the (alltoallv_op q (rot_call q) (umem q) (ujunk q))). set (eg := fun p q => Nat.even (p + q)).
  set (sc := fun r => v_bytes (v_scnts (rot_call r)) (ops r)). set (rc := fun r => v_bytes (v_rcnts (rot_call r)) (ops r)).
  destruct (alltoallv_run 5 (snd_of 0%nat ops umem) sc rc eg (rcv_of 0%nat ops umem)) as (k & cf & Hx & Hd).
  assert (He : alltoallv_ends 0%nat 5 sc rc eg ops umem 1 (d_mem cf 1%nat)) by (exists k, cf; split; [exact Hx|split; [apply Hd; lia|reflexivity]]).
  destruct (mpi_alltoallv_partial nat 0%nat 5 rot_call umem ujunk ops eg (fun _ => 100) (fun _ => 0) (fun _ => DPrim 1) (fun _ => DPrim 1) 1 4 (d_mem cf 1%nat)) as (m' & F & R & U);
    try reflexivity; auto; try lia.
  - intros r _. repeat split; cbn; lia.
  - intros j Hj N. cbn [rot_call v_rcnts]. change ((1 + 3) mod 5)%nat with 4%nat. destruct (Nat.eqb_spec j 4); [contradiction|reflexivity].
  - exists (d_mem cf 1%nat), m'. split; [exact He|]. split; [exact F|].
    pose proof (R 4%nat 0%nat ltac:(lia) ltac:(vm_compute; lia)) as R0. pose proof (R 4%nat 1%nat ltac:(lia) ltac:(vm_compute; lia)) as R1.
    unfold data in R0, R1. cbn in R0, R1. cbn [map]. rewrite R0, R1, !U; [reflexivity| |]; intros [|[|[|[|[|j]]]]] Hj; vm_compute; intuition (discriminate || lia).
Qed.

(** The same ranks: all 25 messages go out, with the sizes the counts say. *)
Example ex_alltoallv_traffic : exists k c, dex 5 (fun p i => (10 * p + i)%nat) (fun p q => (p + q)%nat) (fun q p => (p + q)%nat) (fun _ _ => false) (fun _ _ => 7%nat) k c /\
  length (d_sent c) = 25%nat /\ In (3%nat, 4%nat, 7%nat) (d_sent c) /\ d_mem c 4%nat 7%nat = 47%nat /\ d_mem c 4%nat 8%nat = 7%nat.
Proof.
  destruct (alltoallv_run 5 (fun p i => (10 * p + i)%nat) (fun p q => (p + q)%nat) (fun q p => (p + q)%nat) (fun _ _ => false) (fun _ _ => 7%nat)) as (k & c & Hx & Hd).
  exists k, c. split; [exact Hx|]. destruct (alltoallv_traffic nat 5 _ _ _ _ _ k c Hx) as (N & L & D). split; [|split].
  - rewrite <- (map_length fst). apply Nat.le_antisymm.
    + change 25%nat with (length (list_prod (seq 0 5) (seq 0 5))). apply NoDup_incl_length; [exact N|]. intros [p q] K. apply in_map_iff in K.
      destruct K as ([[p' q'] s] & E & K). cbn [fst] in E. injection E as -> ->. destruct (L p q s K) as (H1 & H2 & _). apply in_prod; apply in_seq; lia.
    + change 25%nat with (length (list_prod (seq 0 5) (seq 0 5))). apply NoDup_incl_length.
      * vm_compute. repeat constructor; cbn; intuition discriminate.
      * intros [p q] K. apply in_prod_iff in K. destruct K as (K1 & K2). apply in_seq in K1, K2. apply in_map_iff. exists (p, q, (p + q)%nat).
        split; [reflexivity|]. apply (D p); [lia|apply Hd; lia|lia].
  - apply (D 3%nat ltac:(lia) (Hd 3%nat ltac:(lia)) 4%nat ltac:(lia)).
  - split.
    + destruct (alltoallv_result nat 5 _ _ _ _ _ k c 4 7 Hx ltac:(lia) (Hd 4%nat ltac:(lia))) as (_ & R).
      destruct (R 4%nat ltac:(lia) ltac:(vm_compute; lia)) as (q' & H1 & H2 & E). assert (Q : q' = 4%nat) by lia. now rewrite E, Q.
    + destruct (alltoallv_result nat 5 _ _ _ _ _ k c 4 8 Hx ltac:(lia) (Hd 4%nat ltac:(lia))) as (R & _). apply R. intros q Hq. lia.
Qed.

(** A vector type with a gap is refused. *)
Example ex_layout_rejected : forall res,
  finishv (the (allgatherv_op 1 {| v_send := PAt 100; v_scnts := fun _ => 1%nat; v_sdispls := fun _ => 0%nat; v_st := Some vec2; v_recv := PAt 0;
    v_rcnts := fun _ => 1%nat; v_rdispls := fun j => j; v_rt := Some (DPrim 2) |} (umem 1) (ujunk 1))) res (umem 1) = None.
Proof. intros res. reflexivity. Qed.
