(** C120, C121: MPI collectives from user memory to user memory. *)
From Coq Require Import List Arith ZArith Bool Lia.
From Verif Require Import DtModel DtSpec DtProof RdModel RdProof AgModel AgProof AaModel AgProp AaProof AaProp PhModel PhProof
  BcModel BcProof BcProp GaModel GaProof GaProp ScModel ScProof ScProp McModel McSpec McProof.
Import ListNotations.
Local Open Scope Z_scope.

(** ** Broadcast *)

(** For any number of ranks, any root, any addresses and contents, and types that may
    differ from rank to rank as long as they have the same number of bytes: a rank for
    which the broadcast has ended has the bytes of the root's elements in its own
    elements, in order, and nothing else of its memory differs; the root's memory is as
    before. Under every interleaving of the engine.
    MISSING: types that are packed wrongly anyway, see bcast_contiguous_refuted. *)
Theorem mpi_bcast_partial : forall (A : Type) (dflt : A) n root (c : nat -> call) (ms junk : nat -> mem A) ops
    (buf : nat -> Z) (ty : nat -> dt) p res,
  (root < n)%nat -> (p < n)%nat ->
  (forall q, (q < n)%nat -> c_send (c q) = PAt (buf q) /\ c_st (c q) = Some (ty q) /\ good (ty q) (c_scnt (c q)) /\
     nbytes (ty q) (c_scnt (c q)) = nbytes (ty root) (c_scnt (c root))) ->
  NoDup (tmapn (ty p) (c_scnt (c p))) ->
  (forall q, (q < n)%nat -> bcast_op root q (c q) (ms q) (junk q) = Some (ops q)) ->
  bcast_ends dflt n root (o_bytes (ops p)) ops ms p res ->
  let m' := finish (ops p) res (ms p) in
  if Nat.eqb p root then m' = ms p
  else (forall i, (i < nbytes (ty p) (c_scnt (c p)))%nat ->
          data (ty p) (c_scnt (c p)) m' (buf p) i = data (ty root) (c_scnt (c root)) (ms root) (buf root) i) /\
       untouched (ty p) (c_scnt (c p)) (ms p) m' (buf p).
Proof.
  intros A dflt n root c ms junk ops buf ty p res Hr Hp H ND Ho He m'.
  assert (Op : forall q, (q < n)%nat -> if Nat.eqb q root
    then ops q = {| o_recv := PNull; o_scnt := c_scnt (c q); o_rcnt := c_scnt (c q); o_st := build (ty q); o_rt := build (ty q);
           o_ts := mk_ts (ms q) (junk q) (buf q) (ty q) (c_scnt (c q)); o_tr := TPtr PNull |}
    else ops q = {| o_recv := PAt (buf q); o_scnt := c_scnt (c q); o_rcnt := c_scnt (c q); o_st := build (ty q); o_rt := build (ty q);
           o_ts := TPtr PNull; o_tr := mk_tr (junk q) (buf q) (ty q) (c_scnt (c q)) |}).
  { intros q Hq. destruct (H q Hq) as (E1 & E2 & _ & _). specialize (Ho q Hq). unfold bcast_op in Ho.
    destruct (Nat.eqb q root).
    - rewrite (start_send false q _ _ _ (buf q) (ty q)) in Ho by (cbn; auto). cbn [c_scnt] in Ho. now injection Ho as <-.
    - rewrite (start_recv false q _ _ _ (buf q) (ty q)) in Ho by (cbn; auto). cbn [c_rcnt] in Ho. now injection Ho as <-. }
  destruct (H p Hp) as (_ & _ & G & NB). destruct (H root Hr) as (_ & _ & Gr & _).
  assert (Bp : o_bytes (ops p) = nbytes (ty p) (c_scnt (c p))).
  { rewrite nbytes_eq. specialize (Op p Hp). unfold o_bytes. destruct (Nat.eqb p root); rewrite Op; reflexivity. }
  destruct (Nat.eqb p root) eqn:Epr.
  - pose proof (Op p Hp) as E. rewrite Epr in E. unfold m', finish. rewrite E. reflexivity.
  - assert (Hn : Nat.eqb n 1 = false).
    { apply Nat.eqb_neq. intros ->. apply Nat.eqb_neq in Epr. lia. }
    unfold bcast_ends in He. rewrite Hn in He. destruct He as (k & cf & Hx & Hd & ->).
    pose proof (bcast_early A n root (o_bytes (ops p)) _ k cf p ltac:(apply Nat.eqb_neq in Hn; lia) Hr Hp Hx Hd) as R.
    unfold bcast_result in R. rewrite Bp in R. pose proof (Op p Hp) as E. rewrite Epr in E.
    pose proof (Op root Hr) as Er. rewrite Nat.eqb_refl in Er.
    destruct (finish_good dflt (ops p) (w_mem (p_proc cf p)) (ms p) (junk p) (buf p) (ty p) (c_scnt (c p)) G ND) as (F1 & F2);
      try (rewrite E; reflexivity).
    { intros i Hi. rewrite R. destruct (Nat.ltb_spec i (nbytes (ty p) (c_scnt (c p)))); [lia|].
      unfold bcast_buf. rewrite Epr. reflexivity. }
    split; [|exact F2]. intros i Hi. unfold m'. rewrite F1 by exact Hi. rewrite R.
    destruct (Nat.ltb_spec i (nbytes (ty p) (c_scnt (c p)))) as [_|]; [|lia].
    unfold bcast_buf. rewrite Nat.eqb_refl. unfold snd_of. rewrite Er. cbn [o_ts].
    apply mk_ts_data; [exact Gr|]. rewrite <- NB. exact Hi.
Qed.
Print Assumptions mpi_bcast_partial.

(** ** Collectives with one block per rank on one side *)

(** What a rank hands in on its send side: elements that are packed correctly, or
    MPI_IN_PLACE; [ne] bytes per block. *)
Definition legal_send (ne : nat) (c : call) : Prop :=
  (exists a d, c_send c = PAt a /\ c_st c = Some d /\ good d (c_scnt c) /\ nbytes d (c_scnt c) = ne /\ c_recv c <> PAt a)
  \/ c_send c = PInPlace.

Lemma div_idx : forall n ne j i, (j < n)%nat -> (i < ne)%nat -> (j * ne + i < n * ne)%nat.
Proof. intros. nia. Qed.

Lemma nbytes_mul : forall d k n, nbytes d (k * n) = (k * nbytes d n)%nat.
Proof. intros. rewrite !nbytes_eq. lia. Qed.

Lemma op_own : forall A (dflt : A) ne rank c (m junk : mem A) b d o, c_recv c = PAt b -> c_rt c = Some d -> solid d ->
  nbytes d (c_rcnt c) = ne -> legal_send ne c -> start true rank c m junk = Some o ->
  o_tr o = TPtr (PAt b) /\ o_bytes o = ne /\
  (forall i, (i < ne)%nat -> content dflt m (o_ts o) i =
     match c_send c, c_st c with
     | PAt a, Some e => data e (c_scnt c) m a i
     | _, _ => data d (c_rcnt c) m (b + Z.of_nat rank * (Z.of_nat (c_rcnt c) * dext d)) i end) /\
  (same_buf (o_ts o) (o_tr o) = true -> c_send c = PInPlace) /\
  (c_send c = PInPlace -> o_ts o = TPtr (PAt (b + Z.of_nat (rank * ne)))).
Proof.
  intros A dflt ne rank c m junk b d o E3 E4 S NB L Ho. destruct (solid_spec d S) as (T & X & C).
  assert (D : dext d = Z.of_nat (msize (build d))) by (unfold dext; rewrite T at 1; apply hull_zseq).
  destruct L as [(a & e & E1 & E2 & G & NE & AB)|E1].
  - rewrite (start_both true rank c m junk a e b d E1 E2 E3 E4) in Ho. injection Ho as <-. cbn [o_tr o_ts o_bytes o_scnt o_st].
    unfold mk_tr. rewrite C. split; [reflexivity|]. rewrite E1, E2. split; [unfold o_bytes; cbn [o_scnt o_st]; now rewrite <- nbytes_eq|].
    split; [intros i Hi; apply mk_ts_data; [exact G|now rewrite NE]|]. split; [|discriminate].
    unfold same_buf, mk_ts. destruct (mcontig (build e)); [|discriminate]. intros Q. apply Z.eqb_eq in Q. congruence.
  - rewrite (start_in_place true rank c m junk b d E1 E3 E4 C) in Ho. injection Ho as <-. cbn [o_tr o_ts].
    assert (Off : mext (build d) * Z.of_nat (c_rcnt c) * Z.of_nat rank = Z.of_nat (rank * ne)).
    { rewrite X, <- NB, nbytes_eq. lia. }
    rewrite Off, E1. split; [reflexivity|]. split; [unfold o_bytes; cbn [o_scnt o_st]; now rewrite <- nbytes_eq|].
    split; [|split; auto]. intros i Hi. rewrite solid_data by (auto; lia). cbn [content]. f_equal.
    rewrite <- NB, nbytes_eq, D. lia.
Qed.

(** Allgather: any number of ranks, contiguous receive types, any send type that is
    packed correctly, MPI_IN_PLACE at any of the ranks. A rank for which the call has
    ended has rank j's contribution in block j, for all j, and nothing else of its memory
    differs.
    MISSING: other receive types; there it is false, see below. *)
Theorem mpi_allgather_partial : forall (A : Type) (dflt : A) n ne (c : nat -> call) (ms junk : nat -> mem A) ops
    (buf : nat -> Z) (ty : nat -> dt) p res,
  (p < n)%nat ->
  (forall q, (q < n)%nat -> c_recv (c q) = PAt (buf q) /\ c_rt (c q) = Some (ty q) /\ solid (ty q) /\
     nbytes (ty q) (c_rcnt (c q)) = ne /\ legal_send ne (c q)) ->
  (forall q, (q < n)%nat -> allgather_op q (c q) (ms q) (junk q) = Some (ops q)) ->
  allgather_ends dflt n (o_bytes (ops p)) ops ms p res ->
  holds_blocks n ne (ty p) (c_rcnt (c p)) (buf p) (contributed dflt c ms) (ms p) (finish (ops p) res (ms p)).
Proof.
  intros A dflt n ne c ms junk ops buf ty p res Hp H Ho He.
  assert (Op := fun q (Hq : (q < n)%nat) => match H q Hq with conj E3 (conj E4 (conj SO (conj NB L))) =>
    op_own A dflt ne q (c q) (ms q) (junk q) (buf q) (ty q) (ops q) E3 E4 SO NB L (Ho q Hq) end).
  destruct (H p Hp) as (E3 & E4 & S & NB & L). destruct (Op p Hp) as (Tp & Bp & _ & _ & _). rewrite Bp in He.
  assert (Cn : forall j i, (j < n)%nat -> (i < ne)%nat -> content dflt (ms j) (o_ts (ops j)) i = contributed dflt c ms j i).
  { intros j i Hj Hi. destruct (Op j Hj) as (_ & _ & D & _ & _). rewrite D by exact Hi. unfold contributed.
    destruct (H j Hj) as (F3 & F4 & _ & _ & [(a & d & F1 & F2 & _)|F1]).
    - now rewrite F1, F2.
    - rewrite F1, F3, F4. reflexivity. }
  assert (Rcv : forall q i, (q < n)%nat -> rcv_of dflt ops ms q i = ms q (buf q + Z.of_nat i)).
  { intros q i Hq. unfold rcv_of. destruct (Op q Hq) as (-> & _). reflexivity. }
  assert (R : (forall j i, (j < n)%nat -> (i < ne)%nat -> res (j * ne + i)%nat = contributed dflt c ms j i) /\
              (forall i, (n * ne <= i)%nat -> res i = ms p (buf p + Z.of_nat i))).
  { unfold allgather_ends in He. destruct (Nat.eqb_spec n 1) as [->|Hn].
    - rewrite He. unfold skipped. split.
      + intros j i Hj Hi. assert (j = 0%nat) by lia. assert (p = 0%nat) by lia. subst j p. rewrite Nat.mul_0_l, Nat.add_0_l.
        rewrite (bwrite_in _ _ _ _ dflt) by (rewrite bread_length; lia). rewrite nth_bread by lia.
        rewrite Nat.sub_0_r. apply Cn; lia.
      + intros i Hi. rewrite bwrite_out by (rewrite bread_length; lia). now apply Rcv.
    - destruct He as (k & cf & Hx & Hd & ->). split.
      + intros j i Hj Hi. rewrite (allgather_delivers_all_blocks A n ne _ _ k cf p ltac:(lia) Hx Hp Hd j i Hj Hi).
        unfold contribution, src_of. destruct (same_buf (o_ts (ops j)) (o_tr (ops j))) eqn:SB; [|now apply Cn].
        destruct (Op j Hj) as (_ & _ & _ & P1 & P2). specialize (P1 SB). specialize (P2 P1).
        rewrite Rcv by exact Hj. rewrite <- Cn by assumption. rewrite P2. cbn [content]. f_equal. lia.
      + intros i Hi. rewrite (allgather_no_overrun A n ne _ _ k cf p ltac:(lia) Hx Hp Hd i Hi). now apply Rcv. }
  destruct R as (R1 & R2).
  destruct (finish_solid (ops p) res (ms p) (buf p) (ty p) (n * c_rcnt (c p)) S Tp) as (F1 & F2).
  { intros i Hi. rewrite nbytes_mul, NB in Hi. now apply R2. }
  split; [|exact F2]. intros j i Hj Hi. rewrite F1 by (rewrite nbytes_mul, NB; now apply div_idx). now apply R1.
Qed.
Print Assumptions mpi_allgather_partial.

(** Gather: any number of ranks, any root, a contiguous receive type at the root, any
    send types that are packed correctly, MPI_IN_PLACE at the root. The receive arguments
    of the other ranks do not matter.
    MISSING: other receive types at the root, see below. *)
Theorem mpi_gather_partial : forall (A : Type) (dflt : A) n root ne (c : nat -> call) (ms junk : nat -> mem A) ops work
    buf ty res,
  (root < n)%nat ->
  c_recv (c root) = PAt buf -> c_rt (c root) = Some ty -> solid ty -> nbytes ty (c_rcnt (c root)) = ne ->
  legal_send ne (c root) -> (forall q, (q < n)%nat -> q <> root -> legal_send ne (c q) /\ c_send (c q) <> PInPlace) ->
  (forall q, (q < n)%nat -> gather_op root q (c q) (ms q) (junk q) = Some (ops q)) ->
  gather_ends dflt n root (o_bytes (ops root)) ops ms work res ->
  holds_blocks n ne ty (c_rcnt (c root)) buf (contributed dflt c ms) (ms root) (finish (ops root) res (ms root)).
Proof.
  intros A dflt n root ne c ms junk ops work buf ty res Hr E3 E4 SO NB L Lq Ho He.
  destruct (solid_spec ty SO) as (T & X & C).
  assert (D : dext ty = Z.of_nat (msize (build ty))) by (unfold dext; rewrite T at 1; apply hull_zseq).
  assert (Root : o_tr (ops root) = TPtr (PAt buf) /\ o_bytes (ops root) = ne /\
    forall i, (i < ne)%nat -> content dflt (ms root) (o_ts (ops root)) i = contributed dflt c ms root i).
  { specialize (Ho root Hr). unfold gather_op in Ho. rewrite Nat.eqb_refl in Ho. unfold contributed.
    destruct L as [(a & d & E1 & E2 & G & NE & _)|E1].
    - rewrite E1 in Ho. rewrite (start_both true root _ _ _ a d buf ty E1 E2 E3 E4) in Ho. injection Ho as <-.
      cbn [o_tr o_ts]. unfold mk_tr. rewrite C, E1, E2. split; [reflexivity|].
      split; [unfold o_bytes; cbn [o_scnt o_st]; now rewrite <- nbytes_eq|]. intros i Hi. apply mk_ts_data; [exact G|now rewrite NE].
    - rewrite E1, E3, E4 in Ho. cbn [padd] in Ho.
      rewrite (start_both true root _ _ _ (buf + mext (build ty) * Z.of_nat (c_rcnt (c root)) * Z.of_nat root) ty buf ty) in Ho by (cbn; auto).
      cbn [c_scnt c_rcnt] in Ho. injection Ho as <-. cbn [o_tr o_ts]. unfold mk_tr. rewrite C, E1, E3, E4. split; [reflexivity|].
      split; [unfold o_bytes; cbn [o_scnt o_st]; now rewrite <- nbytes_eq|]. intros i Hi.
      rewrite mk_ts_data by (try (left; exact SO); lia). f_equal. rewrite X, D. lia. }
  assert (Cn : forall j i, (j < n)%nat -> (i < ne)%nat -> content dflt (ms j) (o_ts (ops j)) i = contributed dflt c ms j i).
  { intros j i Hj Hi. destruct (Nat.eq_dec j root) as [->|Hne]; [now apply Root|].
    destruct (Lq j Hj Hne) as ([(a & d & E1 & E2 & G & NE & _)|E1] & NP); [|contradiction].
    specialize (Ho j Hj). unfold gather_op in Ho. rewrite E1 in Ho. destruct (Nat.eqb_spec j root); [contradiction|].
    rewrite (start_send true j _ _ _ a d) in Ho by (cbn; auto). cbn [c_scnt] in Ho. injection Ho as <-.
    cbn [o_ts]. unfold contributed. rewrite E1, E2. apply mk_ts_data; [exact G|now rewrite NE]. }
  destruct Root as (Tp & Bp & _). rewrite Bp in He.
  assert (Rcv : forall i, rcv_of dflt ops ms root i = ms root (buf + Z.of_nat i)).
  { intros i. unfold rcv_of. rewrite Tp. reflexivity. }
  assert (R : (forall j i, (j < n)%nat -> (i < ne)%nat -> res (j * ne + i)%nat = contributed dflt c ms j i) /\
              (forall i, (n * ne <= i)%nat -> res i = ms root (buf + Z.of_nat i))).
  { unfold gather_ends in He. destruct (Nat.eqb_spec n 1) as [->|Hn].
    - rewrite He. unfold skipped. split.
      + intros j i Hj Hi. assert (j = 0%nat) by lia. assert (root = 0%nat) by lia. subst j root. rewrite Nat.mul_0_l, Nat.add_0_l.
        rewrite (bwrite_in _ _ _ _ dflt) by (rewrite bread_length; lia). rewrite nth_bread by lia.
        rewrite Nat.sub_0_r. apply Cn; lia.
      + intros i Hi. rewrite bwrite_out by (rewrite bread_length; lia). apply Rcv.
    - destruct He as (k & cf & Hx & Hd & ->).
      destruct (gather_early A n root ne _ _ k cf ltac:(lia) Hr Hx Hd) as (G1 & G2). split.
      + intros j i Hj Hi. rewrite G1 by assumption. now apply Cn.
      + intros i Hi. rewrite G2 by exact Hi. unfold gather_bufs. rewrite Nat.eqb_refl. apply Rcv. }
  destruct R as (R1 & R2).
  destruct (finish_solid (ops root) res (ms root) buf ty (n * c_rcnt (c root)) SO Tp) as (F1 & F2).
  { intros i Hi. rewrite nbytes_mul, NB in Hi. now apply R2. }
  split; [|exact F2]. intros j i Hj Hi. rewrite F1 by (rewrite nbytes_mul, NB; now apply div_idx). now apply R1.
Qed.
Print Assumptions mpi_gather_partial.

(** Scatter: the root's send elements are contiguous, every rank receives with any type
    that is unpacked correctly, the root too. The send arguments of the other ranks do
    not matter.
    MISSING: other send types and MPI_IN_PLACE at the root, see below; two ranks and even
    roots other than 0, see scatter_refuted in ScProp. *)
Theorem mpi_scatter_partial : forall (A : Type) (dflt : A) n root ne (c : nat -> call) (ms junk : nat -> mem A) ops work
    sbuf sty (buf : nat -> Z) (ty : nat -> dt) p res,
  (p < n)%nat -> (root < n)%nat -> n = 1%nat \/ (3 <= n)%nat -> root = 0%nat \/ (root mod 2 = 1)%nat ->
  c_send (c root) = PAt sbuf -> c_st (c root) = Some sty -> solid sty -> nbytes sty (c_scnt (c root)) = ne ->
  (forall q, (q < n)%nat -> c_recv (c q) = PAt (buf q) /\ c_rt (c q) = Some (ty q) /\ good (ty q) (c_rcnt (c q)) /\
     NoDup (tmapn (ty q) (c_rcnt (c q))) /\ nbytes (ty q) (c_rcnt (c q)) = ne) ->
  (forall q, (q < n)%nat -> scatter_op root q (c q) (ms q) (junk q) = Some (ops q)) ->
  scatter_ends dflt n root (o_bytes (ops p)) ops ms work p res ->
  let m' := finish (ops p) res (ms p) in
  (forall i, (i < ne)%nat -> data (ty p) (c_rcnt (c p)) m' (buf p) i =
     data sty (n * c_scnt (c root)) (ms root) sbuf (p * ne + i)) /\
  untouched (ty p) (c_rcnt (c p)) (ms p) m' (buf p).
Proof.
  intros A dflt n root ne c ms junk ops work sbuf sty buf ty p res Hp Hr Hn Hroot E1 E2 SO NB H Ho He m'.
  destruct (solid_spec sty SO) as (T & X & C).
  assert (Op : forall q, (q < n)%nat -> o_bytes (ops q) = ne /\ o_recv (ops q) = PAt (buf q) /\ o_rt (ops q) = build (ty q) /\
    o_rcnt (ops q) = c_rcnt (c q) /\ o_tr (ops q) = mk_tr (junk q) (buf q) (ty q) (c_rcnt (c q)) /\
    (q = root -> o_ts (ops q) = TPtr (PAt sbuf))).
  { intros q Hq. destruct (H q Hq) as (E3 & E4 & _ & _ & NE). specialize (Ho q Hq). unfold scatter_op in Ho.
    destruct (Nat.eqb_spec q root) as [E|Hne].
    - subst q. rewrite (start_both false root _ _ _ sbuf sty _ _ E1 E2 E3 E4) in Ho. injection Ho as <-.
      cbn [o_tr o_ts o_recv o_rt o_rcnt]. unfold mk_ts. rewrite C. unfold o_bytes. cbn [o_scnt o_st].
      rewrite <- nbytes_eq. repeat split; auto.
    - rewrite (start_recv false q _ _ _ (buf q) (ty q)) in Ho by (cbn; auto). cbn [c_rcnt] in Ho. injection Ho as <-.
      cbn [o_tr o_ts o_recv o_rt o_rcnt]. unfold o_bytes. cbn [o_scnt o_st]. rewrite <- nbytes_eq. repeat split; auto. contradiction. }
  destruct (Op p Hp) as (Bp & Q1 & Q2 & Q3 & Q4 & _). destruct (Op root Hr) as (_ & _ & _ & _ & _ & Ts). specialize (Ts eq_refl).
  destruct (H p Hp) as (_ & _ & G & ND & NE). rewrite Bp in He.
  assert (Src : forall i, (i < ne)%nat -> snd_of dflt ops ms root (p * ne + i)%nat = data sty (n * c_scnt (c root)) (ms root) sbuf (p * ne + i)).
  { intros i Hi. unfold snd_of. rewrite Ts. cbn [content]. symmetry. apply solid_data; [exact SO|]. rewrite nbytes_mul, NB. now apply div_idx. }
  assert (R : (forall i, (i < ne)%nat -> res i = data sty (n * c_scnt (c root)) (ms root) sbuf (p * ne + i)) /\
              (forall i, (ne <= i)%nat -> res i = content dflt (ms p) (o_tr (ops p)) i)).
  { unfold scatter_ends in He. destruct (Nat.eqb_spec n 1) as [->|Hn1].
    - rewrite He. unfold skipped. assert (p = 0%nat) by lia. assert (root = 0%nat) by lia. subst p root. split; intros i Hi.
      + rewrite (bwrite_in _ _ _ _ dflt) by (rewrite bread_length; lia). rewrite nth_bread by lia.
        rewrite <- Src by exact Hi. f_equal. lia.
      + rewrite bwrite_out by (rewrite bread_length; lia). reflexivity.
    - destruct He as (k & cf & Hx & Hd & ->). destruct Hn as [Hn|Hn]; [contradiction|].
      destruct (scatter_early_partial A n root ne _ _ k cf p Hn Hr Hroot Hp Hx Hd) as (G1 & G2). cbn [s_res] in G2. split; intros i Hi.
      + rewrite G1 by exact Hi. now apply Src.
      + rewrite G2 by exact Hi. reflexivity. }
  destruct R as (R1 & R2).
  destruct (finish_good dflt (ops p) res (ms p) (junk p) (buf p) (ty p) (c_rcnt (c p)) G ND Q4 Q1 Q2 Q3) as (F1 & F2).
  { intros i Hi. apply R2. lia. }
  split; [|exact F2]. intros i Hi. unfold m'. rewrite F1 by lia. now apply R1.
Qed.
Print Assumptions mpi_scatter_partial.

(** Alltoall with contiguous types on both sides and different buffers: block j of rank p
    is block p of rank j.
    MISSING: other types and MPI_IN_PLACE, see below. *)
Theorem mpi_alltoall_partial : forall (A : Type) (dflt : A) n ne (c : nat -> call) (ms junk : nat -> mem A) ops tmp
    (sbuf buf : nat -> Z) (sty ty : nat -> dt) p res,
  (p < n)%nat ->
  (forall q, (q < n)%nat -> c_send (c q) = PAt (sbuf q) /\ c_st (c q) = Some (sty q) /\ solid (sty q) /\
     nbytes (sty q) (c_scnt (c q)) = ne /\ c_recv (c q) = PAt (buf q) /\ c_rt (c q) = Some (ty q) /\ solid (ty q) /\
     nbytes (ty q) (c_rcnt (c q)) = ne /\ sbuf q <> buf q) ->
  (forall q, (q < n)%nat -> alltoall_op q (c q) (ms q) (junk q) = Some (ops q)) ->
  alltoall_ends dflt n (o_bytes (ops p)) ops ms tmp p res ->
  holds_blocks n ne (ty p) (c_rcnt (c p)) (buf p)
    (fun j i => data (sty j) (n * c_scnt (c j)) (ms j) (sbuf j) (p * ne + i)) (ms p) (finish (ops p) res (ms p)).
Proof.
  intros A dflt n ne c ms junk ops tmp sbuf buf sty ty p res Hp H Ho He.
  assert (Op : forall q, (q < n)%nat -> o_bytes (ops q) = ne /\ o_tr (ops q) = TPtr (PAt (buf q)) /\ o_ts (ops q) = TPtr (PAt (sbuf q))).
  { intros q Hq. destruct (H q Hq) as (E1 & E2 & S1 & N1 & E3 & E4 & S2 & _). specialize (Ho q Hq). unfold alltoall_op in Ho.
    rewrite (start_both false q _ _ _ _ _ _ _ E1 E2 E3 E4) in Ho. injection Ho as <-. cbn [o_tr o_ts]. unfold mk_ts, mk_tr, o_bytes.
    cbn [o_scnt o_st]. rewrite <- nbytes_eq. destruct (solid_spec _ S1) as (_ & _ & ->). destruct (solid_spec _ S2) as (_ & _ & ->). auto. }
  destruct (Op p Hp) as (Bp & Tp & _). rewrite Bp in He. destruct (H p Hp) as (_ & _ & _ & _ & _ & _ & SO & NB & _).
  assert (Rcv : forall i, rcv_of dflt ops ms p i = ms p (buf p + Z.of_nat i)).
  { intros i. unfold rcv_of. rewrite Tp. reflexivity. }
  assert (Src : forall j i, (j < n)%nat -> (i < ne)%nat ->
    snd_of dflt ops ms j (p * ne + i)%nat = data (sty j) (n * c_scnt (c j)) (ms j) (sbuf j) (p * ne + i)).
  { intros j i Hj Hi. destruct (H j Hj) as (_ & _ & S1 & N1 & _). unfold snd_of. destruct (Op j Hj) as (_ & _ & ->). cbn [content].
    symmetry. apply solid_data; [exact S1|]. rewrite nbytes_mul, N1. now apply div_idx. }
  assert (R : (forall j i, (j < n)%nat -> (i < ne)%nat -> res (j * ne + i)%nat = data (sty j) (n * c_scnt (c j)) (ms j) (sbuf j) (p * ne + i)) /\
              (forall i, (n * ne <= i)%nat -> res i = ms p (buf p + Z.of_nat i))).
  { unfold alltoall_ends in He. destruct (Nat.eqb_spec n 1) as [->|Hn].
    - rewrite He. unfold skipped. assert (p = 0%nat) by lia. subst p. split.
      + intros j i Hj Hi. assert (j = 0%nat) by lia. subst j. rewrite Nat.mul_0_l, Nat.add_0_l.
        rewrite (bwrite_in _ _ _ _ dflt) by (rewrite bread_length; lia). rewrite nth_bread by lia.
        pose proof (Src 0%nat i ltac:(lia) Hi) as Q. rewrite Nat.mul_0_l, Nat.add_0_l in Q. rewrite <- Q. f_equal. lia.
      + intros i Hi. rewrite bwrite_out by (rewrite bread_length; lia). apply Rcv.
    - destruct He as (k & cf & Hx & Hd & ->). unfold alltoall_sched in Hx, Hd. split.
      + intros j i Hj Hi. rewrite (alltoall_transposes A n ne _ _ tmp k cf p ltac:(lia) Hx Hp Hd j i Hj Hi).
        destruct (Op j Hj) as (_ & T1 & T2). rewrite T1, T2. cbn [same_buf].
        destruct (H j Hj) as (_ & _ & _ & _ & _ & _ & _ & _ & NE). destruct (Z.eqb_spec (sbuf j) (buf j)); [contradiction|]. now apply Src.
      + intros i Hi. rewrite (alltoall_no_overrun A n ne _ _ tmp k cf p ltac:(lia) Hx Hp Hd i Hi). apply Rcv. }
  destruct R as (R1 & R2).
  destruct (finish_solid (ops p) res (ms p) (buf p) (ty p) (n * c_rcnt (c p)) SO Tp) as (F1 & F2).
  { intros i Hi. rewrite nbytes_mul, NB in Hi. now apply R2. }
  split; [|exact F2]. intros j i Hj Hi. rewrite F1 by (rewrite nbytes_mul, NB; now apply div_idx). now apply R1.
Qed.
Print Assumptions mpi_alltoall_partial.

(** ** What goes wrong *)

(** Alltoall with MPI_IN_PLACE at every rank: what rank p actually gets from rank j is
    j's block j + p instead of block p, whenever p < j and j + p < n. *)
Theorem mpi_alltoall_in_place : forall (A : Type) (dflt : A) n ne (c : nat -> call) (ms junk : nat -> mem A) ops tmp
    (buf : nat -> Z) (ty : nat -> dt) p res,
  (2 <= n)%nat -> (p < n)%nat ->
  (forall q, (q < n)%nat -> c_send (c q) = PInPlace /\ c_recv (c q) = PAt (buf q) /\ c_rt (c q) = Some (ty q) /\ solid (ty q) /\
     nbytes (ty q) (c_rcnt (c q)) = ne) ->
  (forall q, (q < n)%nat -> alltoall_op q (c q) (ms q) (junk q) = Some (ops q)) ->
  alltoall_ends dflt n (o_bytes (ops p)) ops ms tmp p res ->
  holds_blocks n ne (ty p) (c_rcnt (c p)) (buf p)
    (fun j i => data (ty j) (n * c_rcnt (c j)) (ms j) (buf j)
                  ((if (p <? j)%nat && (j + p <? n)%nat then j + p else p) * ne + i)) (ms p) (finish (ops p) res (ms p)).
Proof.
  intros A dflt n ne c ms junk ops tmp buf ty p res Hn Hp H Ho He.
  assert (Op : forall q, (q < n)%nat -> o_bytes (ops q) = ne /\ o_tr (ops q) = TPtr (PAt (buf q)) /\ o_ts (ops q) = TPtr (PAt (buf q + 0))).
  { intros q Hq. destruct (H q Hq) as (E1 & E3 & E4 & S2 & N2). destruct (solid_spec _ S2) as (_ & _ & C). specialize (Ho q Hq).
    unfold alltoall_op in Ho. rewrite (start_in_place false q _ _ _ _ _ E1 E3 E4 C) in Ho. injection Ho as <-. cbn [o_tr o_ts].
    unfold o_bytes. cbn [o_scnt o_st]. rewrite <- nbytes_eq. auto. }
  destruct (Op p Hp) as (Bp & Tp & _). rewrite Bp in He. destruct (H p Hp) as (_ & _ & _ & SO & NB).
  assert (Rcv : forall q i, (q < n)%nat -> rcv_of dflt ops ms q i = ms q (buf q + Z.of_nat i)).
  { intros q i Hq. unfold rcv_of. destruct (Op q Hq) as (_ & -> & _). reflexivity. }
  unfold alltoall_ends in He. destruct (Nat.eqb_spec n 1) as [->|_]; [lia|].
  destruct He as (k & cf & Hx & Hd & ->). unfold alltoall_sched in Hx, Hd.
  destruct (finish_solid (ops p) (aa_finalize n ne p (a_res (l_mem (r_loc cf p)))) (ms p) (buf p) (ty p) (n * c_rcnt (c p)) SO Tp) as (F1 & F2).
  { intros i Hi. rewrite nbytes_mul, NB in Hi.
    rewrite (alltoall_no_overrun A n ne _ _ tmp k cf p ltac:(lia) Hx Hp Hd i Hi). now apply Rcv. }
  split; [|exact F2]. intros j i Hj Hi. rewrite F1 by (rewrite nbytes_mul, NB; now apply div_idx).
  rewrite (alltoall_transposes A n ne _ _ tmp k cf p ltac:(lia) Hx Hp Hd j i Hj Hi).
  destruct (Op j Hj) as (_ & T1 & T2). rewrite T1, T2. cbn [same_buf]. destruct (Z.eqb_spec (buf j + 0) (buf j)) as [_|]; [|lia].
  rewrite (seen_val dflt) by assumption. rewrite Rcv by exact Hj. destruct (H j Hj) as (_ & _ & _ & Sj & Nj). symmetry.
  apply solid_data; [exact Sj|]. rewrite nbytes_mul, Nj.
  destruct (Nat.ltb_spec p j), (Nat.ltb_spec (j + p) n); cbn [andb]; apply div_idx; auto.
Qed.
Print Assumptions mpi_alltoall_in_place.

(** Runs to the end exist: everything above is about executions that happen. *)
Lemma alltoall_run : forall n ne (dst src : nat -> nat -> nat) tmp, (0 < n)%nat ->
  exists k c, rexec (aa_sched n ne dst src tmp) k c /\ forall p, (p < n)%nat -> l_rnd (r_loc c p) = sc_nr (aa_sched n ne dst src tmp).
Proof.
  intros n ne dst src tmp Hn. assert (E : sc_nr (aa_sched n ne dst src tmp) = log2_of n) by (apply aa_nr; exact Hn). rewrite E.
  assert (H : forall m k c, rexec (aa_sched n ne dst src tmp) k c -> (m + k = 4 * log2_of n * n)%nat ->
    exists k' c', rexec (aa_sched n ne dst src tmp) k' c' /\ forall p, (p < n)%nat -> l_rnd (r_loc c' p) = log2_of n).
  { induction m as [|m IH]; intros k c Hx Hk.
    - destruct (alltoall_terminates nat n ne dst src tmp k c Hn Hx) as (_ & [H|(c' & H)]).
      + exists k, c. auto.
      + destruct (alltoall_terminates nat n ne dst src tmp (S k) c' Hn (rxS _ _ _ _ Hx H)) as (Hb & _). lia.
    - destruct (alltoall_terminates nat n ne dst src tmp k c Hn Hx) as (_ & [H|(c' & H)]).
      + exists k, c. auto.
      + apply (IH (S k) c' (rxS _ _ _ _ Hx H)). lia. }
  apply (H (4 * log2_of n * n)%nat 0%nat _ (rx0 _)). lia.
Qed.

(** A call as MPI wants it, blocks of [ne] bytes: correct types on both sides. *)
Definition mpi_legal (n ne : nat) (c : call) : Prop :=
  exists a d b e, c_send c = PAt a /\ c_st c = Some d /\ good d (c_scnt c) /\ nbytes d (c_scnt c) = ne /\
    c_recv c = PAt b /\ c_rt c = Some e /\ good e (c_rcnt c) /\ nbytes e (c_rcnt c) = ne /\ NoDup (tmapn e (n * c_rcnt c)) /\
    NoDup (tmapn d (n * c_scnt c)).

Definition no_op : op nat := {| o_recv := PNull; o_scnt := 0; o_rcnt := 0; o_st := Prim 0; o_rt := Prim 0; o_ts := TPtr PNull; o_tr := TPtr PNull |}.
Definition the (o : option (op nat)) : op nat := match o with Some x => x | None => no_op end.

(** Two bytes, two bytes apart. *)
Definition vec2 : dt := DVec 2 1 2 (DPrim 1).
Lemma vec2_good : good vec2 1.
Proof. right. cbn. lia. Qed.

(** User memory with six bytes to send at 100. *)
Definition umem (p : nat) : mem nat := fun x => if (100 <=? x) && (x <? 106) then (10 * p + Z.to_nat (x - 99))%nat else 0%nat.
Definition ujunk (_ : nat) : mem nat := fun _ => 77%nat.
Definition vec_call : call := {| c_send := PAt 100; c_scnt := 2; c_st := Some (DPrim 1); c_recv := PAt 0; c_rcnt := 1; c_rt := Some vec2 |}.

Lemma vec_call_legal : mpi_legal 2 2 vec_call.
Proof.
  exists 100, (DPrim 1), 0, vec2. repeat split; try apply vec2_good; try (left; cbn; lia).
  - vm_compute. repeat constructor; cbn; intuition discriminate.
  - vm_compute. repeat constructor; cbn; intuition discriminate.
Qed.

(** Allgather (and gather at the root) into elements that are not contiguous: the packed
    buffer is made for one block, the engine writes all blocks into it; only the first
    block is unpacked. *)
Theorem mpi_allgather_vector_refuted : exists n ne (c : nat -> call) (ms junk : nat -> mem nat) ops p res buf ty,
  (forall q, (q < n)%nat -> mpi_legal n ne (c q) /\ allgather_op q (c q) (ms q) (junk q) = Some (ops q)) /\ (p < n)%nat /\
  c_recv (c p) = PAt buf /\ c_rt (c p) = Some ty /\
  allgather_ends 0%nat n (o_bytes (ops p)) ops ms p res /\
  (exists size b i, o_tr (ops p) = TTemp size b /\ (size <= i)%nat /\ res i <> b (Z.of_nat i)) /\
  (exists j i, (j < n)%nat /\ (i < ne)%nat /\
     data ty (n * c_rcnt (c p)) (finish (ops p) res (ms p)) buf (j * ne + i) <> contributed 0%nat c ms j i).
Proof.
  set (ops := fun q => the (allgather_op q vec_call (umem q) (ujunk q))).
  destruct (allgather_run_exists 2 2 (rcv_of 0%nat ops umem) (src_of 0%nat ops umem) ltac:(lia)) as (k & cf & Hx & Hd).
  assert (Hd' : l_rnd (r_loc cf 0) = sc_nr (bruck_sched 2 2 (rcv_of 0%nat ops umem) (src_of 0%nat ops umem))).
  { rewrite Hd by lia. reflexivity. }
  pose proof (allgather_delivers_all_blocks nat 2 2 _ _ k cf 0 ltac:(lia) Hx ltac:(lia) Hd') as R.
  exists 2%nat, 2%nat, (fun _ => vec_call), umem, ujunk, ops, 0%nat, (bruck_finalize 2 2 0 (l_mem (r_loc cf 0))), 0, vec2.
  split; [intros q _; split; [exact vec_call_legal|reflexivity]|]. split; [lia|]. split; [reflexivity|]. split; [reflexivity|].
  split; [exists k, cf; split; [exact Hx|split; [exact Hd'|reflexivity]]|]. split.
  - exists 2%nat, (ujunk 0), (1 * 2 + 0)%nat. split; [reflexivity|]. split; [lia|]. rewrite R by lia. vm_compute. discriminate.
  - exists 1%nat, 0%nat. split; [lia|]. split; [lia|]. vm_compute. discriminate.
Qed.
Print Assumptions mpi_allgather_vector_refuted.

(** Alltoall in place: rank 0 of two gets the wrong block of rank 1. *)
Definition place_call : call := {| c_send := PInPlace; c_scnt := 0; c_st := None; c_recv := PAt 100; c_rcnt := 1; c_rt := Some (DPrim 2) |}.

Theorem mpi_alltoall_in_place_refuted : exists n ne (c : nat -> call) (ms junk : nat -> mem nat) ops tmp p res buf ty,
  (forall q, (q < n)%nat -> c_send (c q) = PInPlace /\ c_recv (c q) = PAt buf /\ c_rt (c q) = Some ty /\ solid ty /\
     nbytes ty (c_rcnt (c q)) = ne /\ alltoall_op q (c q) (ms q) (junk q) = Some (ops q)) /\ (p < n)%nat /\
  alltoall_ends 0%nat n (o_bytes (ops p)) ops ms tmp p res /\
  exists j i, (j < n)%nat /\ (i < ne)%nat /\
    data ty (n * c_rcnt (c p)) (finish (ops p) res (ms p)) buf (j * ne + i) <>
    data ty (n * c_rcnt (c j)) (ms j) buf (p * ne + i).
Proof.
  set (ops := fun q => the (alltoall_op q place_call (umem q) (ujunk q))). set (tmp := fun _ : nat => 0%nat).
  destruct (alltoall_run 2 2 (rcv_of 0%nat ops umem) (fun p => if same_buf (o_ts (ops p)) (o_tr (ops p))
      then seen 2 2 p (rcv_of 0%nat ops umem p) else snd_of 0%nat ops umem p) tmp ltac:(lia)) as (k & cf & Hx & Hd).
  set (res := aa_finalize 2 2 0 (a_res (l_mem (r_loc cf 0)))).
  assert (Hend : alltoall_ends 0%nat 2 (o_bytes (ops 0%nat)) ops umem tmp 0 res).
  { exists k, cf. split; [exact Hx|]. split; [apply Hd; lia|reflexivity]. }
  exists 2%nat, 2%nat, (fun _ => place_call), umem, ujunk, ops, tmp, 0%nat, res, 100, (DPrim 2).
  split; [intros q _; repeat split; cbn; lia|]. split; [lia|]. split; [exact Hend|].
  exists 1%nat, 0%nat. split; [lia|]. split; [lia|].
  destruct (mpi_alltoall_in_place nat 0%nat 2 2 (fun _ => place_call) umem ujunk ops tmp (fun _ => 100) (fun _ => DPrim 2) 0 res) as (R & _); auto.
  { intros q _. repeat split; cbn; lia. }
  rewrite R by lia. vm_compute. discriminate.
Qed.
Print Assumptions mpi_alltoall_in_place_refuted.

(** Scatter from elements that are not contiguous: only the first block is packed; the
    other ranks get what is behind the packed buffer. *)
Definition scat_call : call := {| c_send := PAt 100; c_scnt := 1; c_st := Some vec2; c_recv := PAt 0; c_rcnt := 2; c_rt := Some (DPrim 1) |}.
Lemma scat_call_legal : mpi_legal 3 2 scat_call.
Proof.
  exists 100, vec2, 0, (DPrim 1). repeat split; try apply vec2_good; try (left; cbn; lia).
  - vm_compute. repeat constructor; cbn; intuition discriminate.
  - vm_compute. repeat constructor; cbn; intuition discriminate.
Qed.

Lemma scatter_run : forall n ne (src : nat -> nat) buf, (3 <= n)%nat ->
  exists k c, pexec (scatter_prog n 0 ne src buf) k c /\ forall p, (p < n)%nat -> pdone (p_proc c p).
Proof.
  intros n ne src buf Hn. destruct (sc_balanced_single n 0 ne ltac:(lia) ltac:(lia) src buf) as (B & S1).
  destruct (phases_run _ _ B S1 (sc_inside n 0 ne ltac:(lia) ltac:(lia) src buf) (sc_ordered n 0 ne ltac:(lia) ltac:(lia) src buf)) as (k & c & Hx & Hs).
  exists k, c. split; [exact Hx|].
  destruct (scatter_delivers_partial nat n 0 ne src buf Hn ltac:(lia) (or_introl eq_refl)) as (_ & H).
  destruct (H k c Hx Hs) as (_ & H2). intros p Hp. now apply H2.
Qed.

Theorem mpi_scatter_vector_refuted : exists n root ne (c : nat -> call) (ms junk : nat -> mem nat) ops work p res sbuf sty buf ty,
  (forall q, (q < n)%nat -> mpi_legal n ne (c q) /\ scatter_op root q (c q) (ms q) (junk q) = Some (ops q)) /\ (p < n)%nat /\
  c_send (c root) = PAt sbuf /\ c_st (c root) = Some sty /\ c_recv (c p) = PAt buf /\ c_rt (c p) = Some ty /\
  scatter_ends 0%nat n root (o_bytes (ops p)) ops ms work p res /\
  (exists size b, o_ts (ops root) = TTemp size b /\ (size < n * ne)%nat) /\
  exists i, (i < ne)%nat /\ data ty (c_rcnt (c p)) (finish (ops p) res (ms p)) buf i <>
    data sty (n * c_scnt (c root)) (ms root) sbuf (p * ne + i).
Proof.
  set (ops := fun q => the (scatter_op 0 q scat_call (umem q) (ujunk q))). set (work := fun _ _ : nat => 0%nat).
  destruct (scatter_run 3 2 (snd_of 0%nat ops umem 0) (fun q => {| s_rcv := work q; s_res := rcv_of 0%nat ops umem q |}) ltac:(lia)) as (k & cf & Hx & Hd).
  destruct (scatter_early_partial nat 3 0 2 _ _ k cf 1 ltac:(lia) ltac:(lia) (or_introl eq_refl) ltac:(lia) Hx (Hd 1%nat ltac:(lia))) as (R & _).
  exists 3%nat, 0%nat, 2%nat, (fun _ => scat_call), umem, ujunk, ops, work, 1%nat, (s_res (w_mem (p_proc cf 1))), 100, vec2, 0, (DPrim 1).
  split; [intros q _; split; [exact scat_call_legal|]; unfold ops; destruct q as [|q]; reflexivity|].
  split; [lia|]. split; [reflexivity|]. split; [reflexivity|]. split; [reflexivity|]. split; [reflexivity|].
  split; [exists k, cf; split; [exact Hx|split; [apply Hd; lia|reflexivity]]|].
  split; [eexists _, _; split; [reflexivity|vm_compute; lia]|].
  exists 0%nat. split; [lia|]. change (data (DPrim 1) (c_rcnt scat_call) (finish (ops 1%nat) (s_res (w_mem (p_proc cf 1))) (umem 1)) 0 0)
    with (s_res (w_mem (p_proc cf 1)) 0%nat). rewrite R by lia. vm_compute. discriminate.
Qed.
Print Assumptions mpi_scatter_vector_refuted.

(** Scatter with MPI_IN_PLACE at the root: the root's block is written to the address
    MPI_IN_PLACE. *)
Theorem mpi_scatter_in_place_refuted : exists n (c : nat -> call) (ms junk : nat -> mem nat) ops work res,
  c_recv (c 0%nat) = PInPlace /\ (forall q, (q < n)%nat -> q <> 0%nat -> mpi_legal n 2 (c q)) /\
  (forall q, (q < n)%nat -> scatter_op 0 q (c q) (ms q) (junk q) = Some (ops q)) /\
  scatter_ends 0%nat n 0 (o_bytes (ops 0%nat)) ops ms work 0 res /\
  o_tr (ops 0%nat) = TPtr PInPlace /\ exists i, res i <> rcv_of 0%nat ops ms 0 i.
Proof.
  set (c := fun q => match q with
    | O => {| c_send := PAt 100; c_scnt := 2; c_st := Some (DPrim 1); c_recv := PInPlace; c_rcnt := 0; c_rt := None |}
    | S _ => {| c_send := PAt 100; c_scnt := 2; c_st := Some (DPrim 1); c_recv := PAt 0; c_rcnt := 2; c_rt := Some (DPrim 1) |} end).
  set (ops := fun q => the (scatter_op 0 q (c q) (umem q) (ujunk q))). set (work := fun _ _ : nat => 0%nat).
  destruct (scatter_run 3 2 (snd_of 0%nat ops umem 0) (fun q => {| s_rcv := work q; s_res := rcv_of 0%nat ops umem q |}) ltac:(lia)) as (k & cf & Hx & Hd).
  destruct (scatter_early_partial nat 3 0 2 _ _ k cf 0 ltac:(lia) ltac:(lia) (or_introl eq_refl) ltac:(lia) Hx (Hd 0%nat ltac:(lia))) as (R & _).
  exists 3%nat, c, umem, ujunk, ops, work, (s_res (w_mem (p_proc cf 0))).
  split; [reflexivity|]. split.
  { intros [|q] _ N; [contradiction|]. exists 100, (DPrim 1), 0, (DPrim 1). repeat split; try (left; cbn; lia);
      vm_compute; repeat constructor; cbn; intuition discriminate. }
  split; [intros [|q] _; reflexivity|].
  split; [exists k, cf; split; [exact Hx|split; [apply Hd; lia|reflexivity]]|].
  split; [reflexivity|]. exists 0%nat. rewrite R by lia. vm_compute. discriminate.
Qed.
Print Assumptions mpi_scatter_in_place_refuted.

(** A contiguous(2) of bytes, broadcast: the second byte does not arrive (see
    contiguous_refuted in DtProp). *)
Lemma bcast_run : forall n root ne (buf : nat -> nat -> nat), (2 <= n)%nat -> (root < n)%nat ->
  exists k c, pexec (bcast_prog n root ne buf) k c /\ forall p, (p < n)%nat -> pdone (p_proc c p).
Proof.
  intros n root ne buf Hn Hr.
  destruct (phases_run (bcast_prog n root ne buf) _ (bc_balanced n root ne ltac:(lia) Hr buf)
    (bc_single n root ne ltac:(lia) Hr buf) (bc_inside n root ne ltac:(lia) Hr buf)
    (bc_ordered n root ne ltac:(lia) Hr buf)) as (k & c & Hx & Hs).
  exists k, c. split; [exact Hx|]. destruct (bcast_delivers nat n root ne buf ltac:(lia) Hr) as (_ & H).
  destruct (H k c Hx Hs) as (_ & H2). intros p Hp. now apply H2.
Qed.

Definition contig_call : call := {| c_send := PAt 100; c_scnt := 1; c_st := Some (DContig 2 (DPrim 1)); c_recv := PNull; c_rcnt := 0; c_rt := None |}.

Theorem bcast_contiguous_refuted : exists n root (c : nat -> call) (ms junk : nat -> mem nat) ops p res buf ty,
  (root < n)%nat /\ (p < n)%nat /\ p <> root /\
  (forall q, (q < n)%nat -> c_send (c q) = PAt buf /\ c_st (c q) = Some ty /\ NoDup (tmapn ty (c_scnt (c q))) /\
     bcast_op root q (c q) (ms q) (junk q) = Some (ops q)) /\
  bcast_ends 0%nat n root (o_bytes (ops p)) ops ms p res /\
  exists i, (i < nbytes ty (c_scnt (c p)))%nat /\
    data ty (c_scnt (c p)) (finish (ops p) res (ms p)) buf i <> data ty (c_scnt (c root)) (ms root) buf i.
Proof.
  set (ops := fun q => the (bcast_op 0 q contig_call (umem q) (ujunk q))).
  destruct (bcast_run 2 0 2 (bcast_buf 0%nat 0 ops umem) ltac:(lia) ltac:(lia)) as (k & cf & Hx & Hd).
  exists 2%nat, 0%nat, (fun _ => contig_call), umem, ujunk, ops, 1%nat, (w_mem (p_proc cf 1)), 100, (DContig 2 (DPrim 1)).
  split; [lia|]. split; [lia|]. split; [lia|].
  split. { intros [|q] _; repeat split; vm_compute; repeat constructor; cbn; intuition discriminate. }
  split; [exists k, cf; split; [exact Hx|split; [apply Hd; lia|reflexivity]]|].
  exists 1%nat. split; [vm_compute; lia|]. vm_compute. discriminate.
Qed.
Print Assumptions bcast_contiguous_refuted.

(** ** Concrete calls *)

(** Six ranks; the root 4 broadcasts two bytes that lie two apart. *)
Definition bc_call : call := {| c_send := PAt 100; c_scnt := 1; c_st := Some vec2; c_recv := PNull; c_rcnt := 0; c_rt := None |}.
Example ex_mpi_bcast : exists res, let ops := fun q => the (bcast_op 4 q bc_call (umem q) (ujunk q)) in
  bcast_ends 0%nat 6 4 (o_bytes (ops 2%nat)) ops umem 2 res /\
  map (finish (ops 2%nat) res (umem 2)) [99; 100; 101; 102; 103] = [0; 41; 22; 43; 24]%nat.
Proof.
  set (ops := fun q => the (bcast_op 4 q bc_call (umem q) (ujunk q))).
  destruct (bcast_run 6 4 2 (bcast_buf 0%nat 4 ops umem) ltac:(lia) ltac:(lia)) as (k & cf & Hx & Hd).
  exists (w_mem (p_proc cf 2)).
  assert (He : bcast_ends 0%nat 6 4 (o_bytes (ops 2%nat)) ops umem 2 (w_mem (p_proc cf 2))).
  { exists k, cf. split; [exact Hx|]. split; [apply Hd; lia|reflexivity]. }
  split; [exact He|].
  destruct (mpi_bcast_partial nat 0%nat 6 4 (fun _ => bc_call) umem ujunk ops (fun _ => 100) (fun _ => vec2) 2 (w_mem (p_proc cf 2))
    ltac:(lia) ltac:(lia)) as (R & U).
  - intros q _. split; [reflexivity|]. split; [reflexivity|]. split; [exact vec2_good|reflexivity].
  - vm_compute. repeat constructor; cbn; intuition discriminate.
  - intros q _. unfold ops, bcast_op. destruct (Nat.eqb q 4); reflexivity.
  - exact He.
  - pose proof (R 0%nat ltac:(vm_compute; lia)) as R0. pose proof (R 1%nat ltac:(vm_compute; lia)) as R1.
    unfold data in R0, R1. change (100 + nth 0 (tmapn vec2 (c_scnt bc_call)) 0) with 100 in R0. change (100 + nth 1 (tmapn vec2 (c_scnt bc_call)) 0) with 102 in R1.
    cbn [map]. rewrite R0, R1, !U by (vm_compute; intuition discriminate). reflexivity.
Qed.

(** Three ranks gather everywhere; rank 1 in place, the others from elsewhere. *)
Definition ag_call (q : nat) : call :=
  if Nat.eqb q 1 then {| c_send := PInPlace; c_scnt := 0; c_st := None; c_recv := PAt 100; c_rcnt := 2; c_rt := Some (DPrim 1) |}
  else {| c_send := PAt 100; c_scnt := 1; c_st := Some vec2; c_recv := PAt 0; c_rcnt := 1; c_rt := Some (DPrim 2) |}.
Example ex_mpi_allgather : exists res, let ops := fun q => the (allgather_op q (ag_call q) (umem q) (ujunk q)) in
  allgather_ends 0%nat 3 (o_bytes (ops 2%nat)) ops umem 2 res /\
  map (finish (ops 2%nat) res (umem 2)) [-1; 0; 1; 2; 3; 4; 5; 6] = [0; 1; 3; 13; 14; 21; 23; 0]%nat.
Proof.
  set (ops := fun q => the (allgather_op q (ag_call q) (umem q) (ujunk q))).
  destruct (allgather_run_exists 3 2 (rcv_of 0%nat ops umem) (src_of 0%nat ops umem) ltac:(lia)) as (k & cf & Hx & Hd).
  exists (bruck_finalize 3 2 2 (l_mem (r_loc cf 2))).
  assert (He : allgather_ends 0%nat 3 (o_bytes (ops 2%nat)) ops umem 2 (bruck_finalize 3 2 2 (l_mem (r_loc cf 2)))).
  { exists k, cf. split; [exact Hx|]. split; [rewrite Hd by lia; reflexivity|reflexivity]. }
  split; [exact He|].
  destruct (mpi_allgather_partial nat 0%nat 3 2 ag_call umem ujunk ops (fun q => if Nat.eqb q 1 then 100 else 0)
    (fun q => if Nat.eqb q 1 then DPrim 1 else DPrim 2) 2 (bruck_finalize 3 2 2 (l_mem (r_loc cf 2))) ltac:(lia)) as (R & U).
  - intros q _. unfold ag_call. destruct (Nat.eqb q 1); cbn [c_recv c_rt c_rcnt]; repeat split; try (cbn; lia).
    + right. reflexivity.
    + left. exists 100, vec2. repeat split; [exact vec2_good|discriminate].
  - intros q _. unfold ops, ag_call. destruct (Nat.eqb q 1); reflexivity.
  - exact He.
  - unfold data in R. pose proof (R 0%nat 0%nat ltac:(lia) ltac:(lia)) as R0. pose proof (R 0%nat 1%nat ltac:(lia) ltac:(lia)) as R1.
    pose proof (R 1%nat 0%nat ltac:(lia) ltac:(lia)) as R2. pose proof (R 1%nat 1%nat ltac:(lia) ltac:(lia)) as R3.
    pose proof (R 2%nat 0%nat ltac:(lia) ltac:(lia)) as R4. pose proof (R 2%nat 1%nat ltac:(lia) ltac:(lia)) as R5.
    unfold untouched in U. cbn -[finish contributed ops bruck_finalize] in R0, R1, R2, R3, R4, R5, U.
    cbn [map]. rewrite R0, R1, R2, R3, R4, R5, !U by (vm_compute; intuition discriminate). reflexivity.
Qed.

(** Alltoall between three ranks, one byte each. *)
Definition aa_call : call := {| c_send := PAt 100; c_scnt := 1; c_st := Some (DPrim 1); c_recv := PAt 0; c_rcnt := 1; c_rt := Some (DPrim 1) |}.
Example ex_mpi_alltoall : exists res, let ops := fun q => the (alltoall_op q aa_call (umem q) (ujunk q)) in
  alltoall_ends 0%nat 3 (o_bytes (ops 1%nat)) ops umem (fun _ => 5%nat) 1 res /\
  map (finish (ops 1%nat) res (umem 1)) [-1; 0; 1; 2; 3] = [0; 2; 12; 22; 0]%nat.
Proof.
  set (ops := fun q => the (alltoall_op q aa_call (umem q) (ujunk q))).
  destruct (alltoall_run 3 1 (rcv_of 0%nat ops umem) (fun p => if same_buf (o_ts (ops p)) (o_tr (ops p))
      then seen 3 1 p (rcv_of 0%nat ops umem p) else snd_of 0%nat ops umem p) (fun _ => 5%nat) ltac:(lia)) as (k & cf & Hx & Hd).
  exists (aa_finalize 3 1 1 (a_res (l_mem (r_loc cf 1)))).
  assert (He : alltoall_ends 0%nat 3 (o_bytes (ops 1%nat)) ops umem (fun _ => 5%nat) 1 (aa_finalize 3 1 1 (a_res (l_mem (r_loc cf 1))))).
  { exists k, cf. split; [exact Hx|]. split; [apply Hd; lia|reflexivity]. }
  split; [exact He|].
  destruct (mpi_alltoall_partial nat 0%nat 3 1 (fun _ => aa_call) umem ujunk ops (fun _ => 5%nat) (fun _ => 100) (fun _ => 0)
    (fun _ => DPrim 1) (fun _ => DPrim 1) 1 (aa_finalize 3 1 1 (a_res (l_mem (r_loc cf 1)))) ltac:(lia)) as (R & U).
  - intros q _. repeat split; try (cbn; lia).
  - intros q _. reflexivity.
  - exact He.
  - unfold data in R. pose proof (R 0%nat 0%nat ltac:(lia) ltac:(lia)) as R0. pose proof (R 1%nat 0%nat ltac:(lia) ltac:(lia)) as R1.
    pose proof (R 2%nat 0%nat ltac:(lia) ltac:(lia)) as R2. unfold untouched in U.
    cbn -[finish umem ops aa_finalize] in R0, R1, R2, U. cbn [map]. rewrite R0, R1, R2, !U by (vm_compute; intuition discriminate). reflexivity.
Qed.

(** Gather and scatter between three ranks, root 1; the gather root is in place. *)
Definition ga_call (q : nat) : call :=
  if Nat.eqb q 1 then {| c_send := PInPlace; c_scnt := 0; c_st := None; c_recv := PAt 100; c_rcnt := 1; c_rt := Some (DPrim 2) |}
  else {| c_send := PAt 100; c_scnt := 1; c_st := Some vec2; c_recv := PNull; c_rcnt := 0; c_rt := None |}.
Example ex_mpi_gather : exists res, let ops := fun q => the (gather_op 1 q (ga_call q) (umem q) (ujunk q)) in
  gather_ends 0%nat 3 1 (o_bytes (ops 1%nat)) ops umem (fun _ _ => 5%nat) res /\
  map (finish (ops 1%nat) res (umem 1)) [99; 100; 101; 102; 103; 104; 105; 106] = [0; 1; 3; 13; 14; 21; 23; 0]%nat.
Proof.
  set (ops := fun q => the (gather_op 1 q (ga_call q) (umem q) (ujunk q))). set (work := fun _ _ : nat => 5%nat).
  destruct (ga_balanced_single 3 1 2 ltac:(lia) ltac:(lia) (snd_of 0%nat ops umem) (gather_bufs 0%nat 1 ops umem work)) as (B & S1).
  destruct (phases_run _ _ B S1 (ga_inside 3 1 2 ltac:(lia) ltac:(lia) _ _) (ga_ordered 3 1 2 ltac:(lia) ltac:(lia) _ _)) as (k & cf & Hx & Hs).
  destruct (gather_collects nat 3 1 2 (snd_of 0%nat ops umem) (gather_bufs 0%nat 1 ops umem work) ltac:(lia) ltac:(lia)) as (_ & H).
  destruct (H k cf Hx Hs) as (_ & H1 & _).
  assert (He : gather_ends 0%nat 3 1 (o_bytes (ops 1%nat)) ops umem work (w_mem (p_proc cf 1))).
  { exists k, cf. split; [exact Hx|]. split; [apply H1; lia|reflexivity]. }
  exists (w_mem (p_proc cf 1)). split; [exact He|].
  destruct (mpi_gather_partial nat 0%nat 3 1 2 ga_call umem ujunk ops work 100 (DPrim 2) (w_mem (p_proc cf 1)) ltac:(lia)) as (R & U); try reflexivity; auto.
  - cbn; lia.
  - right; reflexivity.
  - intros q _ N. unfold ga_call. destruct (Nat.eqb_spec q 1) as [E|_]; [contradiction|]. split; [|discriminate].
    left. exists 100, vec2. repeat split; [exact vec2_good|discriminate].
  - intros q _. unfold ops, ga_call, gather_op. destruct (Nat.eqb q 1); reflexivity.
  - unfold data in R. pose proof (R 0%nat 0%nat ltac:(lia) ltac:(lia)) as R0. pose proof (R 0%nat 1%nat ltac:(lia) ltac:(lia)) as R1.
    pose proof (R 1%nat 0%nat ltac:(lia) ltac:(lia)) as R2. pose proof (R 1%nat 1%nat ltac:(lia) ltac:(lia)) as R3.
    pose proof (R 2%nat 0%nat ltac:(lia) ltac:(lia)) as R4. pose proof (R 2%nat 1%nat ltac:(lia) ltac:(lia)) as R5.
    unfold untouched in U. cbn -[finish contributed ops bruck_finalize] in R0, R1, R2, R3, R4, R5, U.
    cbn [map]. rewrite R0, R1, R2, R3, R4, R5, !U by (vm_compute; intuition discriminate). reflexivity.
Qed.

Definition sc_call : call := {| c_send := PAt 100; c_scnt := 2; c_st := Some (DPrim 1); c_recv := PAt 0; c_rcnt := 1; c_rt := Some vec2 |}.
Example ex_mpi_scatter : exists res, let ops := fun q => the (scatter_op 0 q sc_call (umem q) (ujunk q)) in
  scatter_ends 0%nat 3 0 (o_bytes (ops 2%nat)) ops umem (fun _ _ => 5%nat) 2 res /\
  map (finish (ops 2%nat) res (umem 2)) [-1; 0; 1; 2; 3] = [0; 5; 0; 6; 0]%nat.
Proof.
  set (ops := fun q => the (scatter_op 0 q sc_call (umem q) (ujunk q))). set (work := fun _ _ : nat => 5%nat).
  destruct (scatter_run 3 2 (snd_of 0%nat ops umem 0) (fun q => {| s_rcv := work q; s_res := rcv_of 0%nat ops umem q |}) ltac:(lia)) as (k & cf & Hx & Hd).
  exists (s_res (w_mem (p_proc cf 2))).
  assert (He : scatter_ends 0%nat 3 0 (o_bytes (ops 2%nat)) ops umem work 2 (s_res (w_mem (p_proc cf 2)))).
  { exists k, cf. split; [exact Hx|]. split; [apply Hd; lia|reflexivity]. }
  split; [exact He|].
  destruct (mpi_scatter_partial nat 0%nat 3 0 2 (fun _ => sc_call) umem ujunk ops work 100 (DPrim 1) (fun _ => 0) (fun _ => vec2) 2
    (s_res (w_mem (p_proc cf 2)))) as (R & U); try reflexivity; auto; try lia.
  - cbn; lia.
  - intros q _. repeat split; try exact vec2_good. vm_compute. repeat constructor; cbn; intuition discriminate.
  - intros q _. unfold ops, scatter_op. destruct (Nat.eqb q 0); reflexivity.
  - unfold data in R. pose proof (R 0%nat ltac:(lia)) as R0. pose proof (R 1%nat ltac:(lia)) as R1. unfold untouched in U.
    cbn -[finish umem ops aa_finalize] in R0, R1, U. cbn [map]. rewrite R0, R1, !U by (vm_compute; intuition discriminate). reflexivity.
Qed.
