(** Facts about the MPI layer of collectives. *)
From Coq Require Import List Arith ZArith Bool Lia.
From Verif Require Import DtModel DtSpec DtProof RdModel RdProof AgModel AaModel AgProp AaProof AaProp PhModel PhProof
  BcModel BcProp GaModel GaProp ScModel ScProp McModel McSpec.
Import ListNotations.
Local Open Scope Z_scope.

(** Types that are packed and unpacked as MPI says: see transfer_exact_partial. *)
Definition good (d : dt) (n : nat) : Prop := solid d \/ (spread d /\ n = 1%nat).

Lemma flat_zseq : forall k s (f : Z -> list (Z * Z)) po,
  (forall j, map fst (f j) = shift (po + j * Z.of_nat s) (zseq s)) ->
  map fst (flat_map f (zseq k)) = shift po (zseq (k * s)).
Proof.
  intros k s f po H. rewrite map_flat_map. rewrite <- copies_zseq. unfold copies. rewrite shift_flat_map.
  apply flat_map_ext'. intros x _. rewrite H, shift_shift. reflexivity.
Qed.

Lemma solid_fst : forall d, solid d -> forall po uo,
  map fst (moves (build d) po uo) = shift po (zseq (msize (build d))).
Proof.
  induction d as [n|c o IH|c b s o IH|c b s o IH|l o IH|l o IH|l IH] using dt_ind'; intros S po uo; cbn [solid] in S; try contradiction.
  - cbn [build moves msize]. apply run_fst.
  - destruct S as (-> & S). cbn [build moves msize]. replace (1 * 1 * msize (build o))%nat with (1 * msize (build o))%nat by lia.
    apply flat_zseq. intros j. now apply IH.
  - destruct S as (-> & -> & -> & S). cbn [build moves msize]. replace (1 * 1 * msize (build o))%nat with (1 * msize (build o))%nat by lia.
    apply flat_zseq. intros j. now apply IH.
  - destruct S as (NE & AD & F). rewrite (fold_and _ (fun e => (0 < fst (fst e))%nat /\ solid (snd e))) in F.
    cbn [build]. rewrite moves_ind. cbn [msize]. clear NE AD IH. revert po uo.
    induction l as [|e t IHl]; intros po uo; [reflexivity|].
    destruct (F e (or_introl eq_refl)) as (N & S). destruct (solid_spec _ S) as (_ & _ & C).
    unfold struct_blocks. cbn [map filter fst snd]. destruct (Nat.eqb_spec (fst (fst e)) 0); [lia|].
    cbn [negb map fst snd ind_moves]. rewrite C, map_app, run_fst.
    unfold struct_blocks in IHl. rewrite IHl by (intros x Hx; apply F; now right).
    cbn [struct_size fold_right fst snd]. fold (struct_size (map (fun e => (fst e, build (snd e))) t)).
    rewrite zseq_app, shift_app. f_equal. change (map (Z.add ?a) ?b) with (shift a b). rewrite shift_shift. reflexivity.
Qed.

Lemma spread_fst : forall d, spread d -> forall po uo,
  map fst (moves (build d) po uo) = shift po (zseq (msize (build d))).
Proof.
  induction d as [n|c o IH|c b s o IH|c b s o IH|l o IH|l o IH|l IH] using dt_ind'; intros S po uo; cbn [spread] in S; try contradiction.
  - destruct S as (-> & S). cbn [build moves msize]. replace (c * 1 * msize (build o))%nat with (c * msize (build o))%nat by lia.
    apply flat_zseq. intros j. now apply solid_fst.
  - destruct S as (-> & S). cbn [build moves msize]. replace (c * 1 * msize (build o))%nat with (c * msize (build o))%nat by lia.
    apply flat_zseq. intros j. destruct S as [S|(S & _)]; [now apply solid_fst|now apply IH].
Qed.

Lemma good_snd : forall d n, good d n -> map snd (bytes_moved (build d) n) = tmapn d n.
Proof.
  intros d n [S|(S & ->)]; [now apply solid_bytes|]. rewrite spread_bytes by exact S.
  unfold tmapn. now rewrite copies_1.
Qed.
Lemma good_fst : forall d n, good d n -> map fst (bytes_moved (build d) n) = zseq (n * msize (build d)).
Proof.
  intros d n G. unfold bytes_moved. destruct (mcontig (build d)) eqn:C; [rewrite run_fst; apply shift_0|].
  destruct G as [S|(S & ->)]; [destruct (solid_spec d S) as (_ & _ & C'); congruence|].
  unfold packn. rewrite zseq_1. cbn [flat_map]. rewrite app_nil_r, spread_fst by exact S.
  rewrite Z.mul_0_l, shift_0. f_equal. lia.
Qed.

Lemma nth_zseq : forall n i, (i < n)%nat -> nth i (zseq n) 0 = Z.of_nat i.
Proof.
  intros n i H. unfold zseq. change 0 with (Z.of_nat 0). rewrite map_nth, seq_nth by exact H. reflexivity.
Qed.

Lemma nbytes_eq : forall d n, nbytes d n = (n * msize (build d))%nat.
Proof. intros d n. unfold nbytes, tmapn. now rewrite copies_length, size_build. Qed.

(** Byte i of the packed buffer is byte i of the elements. *)
Lemma good_pairs : forall d n i, good d n -> (i < nbytes d n)%nat ->
  In (Z.of_nat i, nth i (tmapn d n) 0) (bytes_moved (build d) n).
Proof.
  intros d n i G H. rewrite <- (good_snd d n G) in *. unfold nbytes in H. rewrite <- (good_snd d n G), map_length in H.
  assert (E : nth i (bytes_moved (build d) n) (0, 0) = (Z.of_nat i, nth i (map snd (bytes_moved (build d) n)) 0)).
  { rewrite (surjective_pairing (nth i (bytes_moved (build d) n) (0, 0))). f_equal.
    - rewrite <- (map_nth fst). cbn [fst]. rewrite (good_fst d n G). apply nth_zseq.
      rewrite <- (zseq_length (n * _)), <- (good_fst d n G), map_length. exact H.
    - rewrite <- (map_nth snd). reflexivity. }
  rewrite <- E. now apply nth_In.
Qed.

Lemma good_nodup : forall d n, good d n -> NoDup (map fst (bytes_moved (build d) n)).
Proof. intros d n G. rewrite good_fst by exact G. apply zseq_nodup. Qed.

Lemma unpack_out : forall A mv (packed u : mem A) x, ~ In x (map snd mv) -> unpack_with mv packed u x = u x.
Proof.
  intros A. induction mv as [|[a b] t IH]; intros packed u x H; [reflexivity|].
  unfold unpack_with. cbn [fold_left fst snd]. fold (unpack_with t packed (mset u b (packed a))).
  rewrite IH by (intros K; apply H; now right). unfold mset. destruct (Z.eqb_spec x b) as [->|]; [|reflexivity].
  exfalso. apply H. now left.
Qed.
Lemma unpack_in : forall A mv (packed u : mem A) a b, NoDup (map snd mv) -> In (a, b) mv ->
  unpack_with mv packed u b = packed a.
Proof.
  intros A. induction mv as [|[a' b'] t IH]; intros packed u a b ND H; [destruct H|].
  cbn [map snd] in ND. inversion ND as [|? ? N ND']; subst.
  unfold unpack_with. cbn [fold_left fst snd]. fold (unpack_with t packed (mset u b' (packed a'))).
  destruct H as [E|H]; [|now apply IH]. injection E as -> ->. rewrite unpack_out by exact N. unfold mset. now rewrite Z.eqb_refl.
Qed.

Section P.
Context {A : Type}.
Variable dflt : A.
Implicit Types (m junk : mem A).

(** The send buffer of an operation holds the bytes of the user's elements. *)
Definition sends (o : op A) (m : mem A) (ne : nat) (f : nat -> A) : Prop :=
  o_bytes o = ne /\ forall i, (i < ne)%nat -> content dflt m (o_ts o) i = f i.

(** The send buffer that [start] makes. *)
Definition mk_ts (m junk : mem A) (a : Z) (d : dt) (n : nat) : tbuf A :=
  if mcontig (build d) then TPtr (PAt a) else TTemp (msize (build d) * n) (pack_with (packn (build d) n) (view m a) junk).

Lemma mk_ts_data : forall m junk a d n i, good d n -> (i < nbytes d n)%nat ->
  content dflt m (mk_ts m junk a d n) i = data d n m a i.
Proof.
  intros m junk a d n i G H. unfold mk_ts, data. pose proof (good_pairs d n i G H) as P. pose proof (good_nodup d n G) as ND.
  unfold bytes_moved in *. destruct (mcontig (build d)) eqn:C.
  - unfold run in P. apply in_map_iff in P. destruct P as (k & E & _). injection E as E1 E2.
    cbn [content]. f_equal. lia.
  - cbn [content]. rewrite (pack_with_in _ _ _ _ _ _ ND P). reflexivity.
Qed.

(** The same for the receive side. *)
Definition mk_tr (junk : mem A) (a : Z) (d : dt) (n : nat) : tbuf A :=
  if mcontig (build d) then TPtr (PAt a) else TTemp (msize (build d) * n) junk.

Lemma solid_tmapn : forall d n, solid d -> tmapn d n = zseq (nbytes d n).
Proof.
  intros d n S. rewrite nbytes_eq. rewrite <- (solid_bytes d n S). unfold bytes_moved.
  destruct (solid_spec d S) as (_ & _ & ->). rewrite run_snd. apply shift_0.
Qed.

Lemma solid_data : forall d n m a i, solid d -> (i < nbytes d n)%nat -> data d n m a i = m (a + Z.of_nat i).
Proof. intros d n m a i S H. unfold data. rewrite solid_tmapn by exact S. now rewrite nth_zseq. Qed.

(** A result that was left in a contiguous receive buffer. *)
Lemma finish_solid : forall o res m a d n, solid d -> o_tr o = TPtr (PAt a) ->
  (forall i, (nbytes d n <= i)%nat -> res i = m (a + Z.of_nat i)) ->
  (forall i, (i < nbytes d n)%nat -> data d n (finish o res m) a i = res i) /\ untouched d n m (finish o res m) a.
Proof.
  intros o res m a d n S E R. unfold finish. rewrite E. split.
  - intros i H. rewrite solid_data by assumption. destruct (Z.ltb_spec (a + Z.of_nat i) a); [lia|]. f_equal. lia.
  - intros x Hx. rewrite solid_tmapn in Hx by exact S. destruct (Z.ltb_spec x a) as [|L]; [reflexivity|].
    rewrite R. { f_equal. lia. }
    destruct (le_lt_dec (nbytes d n) (Z.to_nat (x - a))); [assumption|]. exfalso. apply Hx. apply in_zseq. lia.
Qed.

(** A result of as many bytes as the receive elements have. *)
Lemma finish_good : forall o res m junk a d n, good d n -> NoDup (tmapn d n) -> o_tr o = mk_tr junk a d n ->
  o_recv o = PAt a -> o_rt o = build d -> o_rcnt o = n ->
  (forall i, (nbytes d n <= i)%nat -> res i = content dflt m (o_tr o) i) ->
  (forall i, (i < nbytes d n)%nat -> data d n (finish o res m) a i = res i) /\ untouched d n m (finish o res m) a.
Proof.
  intros o res m junk a d n G ND E1 E2 E3 E4 R. unfold mk_tr in E1. unfold finish. rewrite E1 in R |- *.
  pose proof (good_snd d n G) as GS. pose proof (fun i => good_pairs d n i G) as GP. unfold bytes_moved in *.
  destruct (mcontig (build d)) eqn:C.
  - cbn [content] in R. rewrite run_snd, shift_0 in GS. rewrite <- nbytes_eq in GS. split.
    + intros i H. unfold data. rewrite <- GS, nth_zseq by exact H. destruct (Z.ltb_spec (a + Z.of_nat i) a); [lia|]. f_equal. lia.
    + intros x Hx. destruct (Z.ltb_spec x a) as [|L]; [reflexivity|]. rewrite R. { f_equal. lia. }
      destruct (le_lt_dec (nbytes d n) (Z.to_nat (x - a))); [assumption|]. exfalso. apply Hx. rewrite <- GS. apply in_zseq. lia.
  - rewrite E2, E3, E4. split.
    + intros i H. unfold data. replace (a + nth i (tmapn d n) 0 - a) with (nth i (tmapn d n) 0) by lia.
      rewrite (unpack_in _ _ _ _ (Z.of_nat i)); [f_equal; lia| |now apply GP]. rewrite GS. exact ND.
    + intros x Hx. rewrite unpack_out by (rewrite GS; exact Hx). unfold view. f_equal. lia.
Qed.

(** The shapes of the operations. *)
Lemma start_both : forall own rank c m junk a d b e, c_send c = PAt a -> c_st c = Some d -> c_recv c = PAt b -> c_rt c = Some e ->
  start own rank c m junk = Some {| o_recv := PAt b; o_scnt := c_scnt c; o_rcnt := c_rcnt c; o_st := build d; o_rt := build e;
    o_ts := mk_ts m junk a d (c_scnt c); o_tr := mk_tr junk b e (c_rcnt c) |}.
Proof.
  intros own rank c m junk a d b e E1 E2 E3 E4. unfold start, mk_ts, mk_tr. rewrite E1, E2, E3, E4.
  cbn [is_null negb andb]. destruct (mcontig (build d)), (mcontig (build e)); reflexivity.
Qed.
Lemma start_in_place : forall own rank c m junk b e, c_send c = PInPlace -> c_recv c = PAt b -> c_rt c = Some e ->
  mcontig (build e) = true ->
  start own rank c m junk = Some {| o_recv := PAt b; o_scnt := c_rcnt c; o_rcnt := c_rcnt c; o_st := build e; o_rt := build e;
    o_ts := TPtr (PAt (b + (if own then mext (build e) * Z.of_nat (c_rcnt c) * Z.of_nat rank else 0))); o_tr := TPtr (PAt b) |}.
Proof.
  intros own rank c m junk b e E1 E3 E4 C. unfold start. rewrite E1, E3, E4.
  cbn [is_null negb andb padd]. rewrite C. destruct own; reflexivity.
Qed.
Lemma start_send : forall own rank c m junk a d, c_send c = PAt a -> c_st c = Some d -> c_recv c = PNull -> c_rt c = None ->
  start own rank c m junk = Some {| o_recv := PNull; o_scnt := c_scnt c; o_rcnt := c_scnt c; o_st := build d; o_rt := build d;
    o_ts := mk_ts m junk a d (c_scnt c); o_tr := TPtr PNull |}.
Proof.
  intros own rank c m junk a d E1 E2 E3 E4. unfold start, mk_ts. rewrite E1, E2, E3, E4.
  cbn [is_null negb andb]. destruct (mcontig (build d)); reflexivity.
Qed.
Lemma start_recv : forall own rank c m junk b e, c_send c = PNull -> c_st c = None -> c_recv c = PAt b -> c_rt c = Some e ->
  start own rank c m junk = Some {| o_recv := PAt b; o_scnt := c_rcnt c; o_rcnt := c_rcnt c; o_st := build e; o_rt := build e;
    o_ts := TPtr PNull; o_tr := mk_tr junk b e (c_rcnt c) |}.
Proof.
  intros own rank c m junk b e E1 E2 E3 E4. unfold start, mk_tr. rewrite E1, E2, E3, E4.
  cbn [is_null negb andb]. destruct (mcontig (build e)); reflexivity.
Qed.

Lemma seen_alias : forall n ne me (b : nat -> A), (me <= n)%nat ->
  aa_init n ne me b (seen n ne me b) = alias_init n ne me b.
Proof.
  intros n ne me b H. unfold aa_init, alias_init, seen.
  set (b1 := bwrite b 0 (bread b (me * ne) (n * ne - me * ne))).
  replace (bread (fun i => if (i <? me * ne)%nat then b1 i else b i) (me * ne) (n * ne - me * ne))
    with (bread b (me * ne) (n * ne - me * ne)).
  2:{ apply bread_ext. intros i Hi. destruct (Nat.ltb_spec i (me * ne)); [lia|reflexivity]. }
  fold b1. f_equal. apply bread_ext. intros i Hi. destruct (Nat.ltb_spec i (me * ne)); [reflexivity|lia].
Qed.

Lemma seen_val : forall n ne me (b : nat -> A) j e, (me < n)%nat -> (j < n)%nat -> (e < ne)%nat ->
  seen n ne me b (j * ne + e) = b ((if (j <? me)%nat && (me + j <? n)%nat then me + j else j) * ne + e)%nat.
Proof.
  intros n ne me b j e H1 H2 H3. unfold seen.
  destruct (Nat.ltb_spec j me) as [L|L]; cbn [andb].
  - destruct (Nat.ltb_spec (j * ne + e) (me * ne)) as [K|K]; [|nia].
    destruct (Nat.ltb_spec (me + j) n) as [M|M].
    + rewrite (bwrite_in _ _ _ _ dflt) by (rewrite bread_length; nia). rewrite nth_bread by nia. f_equal. lia.
    + apply bwrite_out. right. rewrite bread_length. nia.
  - destruct (Nat.ltb_spec (j * ne + e) (me * ne)) as [K|K]; [nia|reflexivity].
Qed.
End P.
