(* Copies and temporaries: what the heap operations of PdModel do when they succeed *)
From Coq Require Import List ZArith Bool Arith Lia.
From Verif Require Import DtModel DtSpec DtProof PdModel PdSpec.
Import ListNotations.
Local Open Scope Z_scope.

(* A pointer to the packed elements *)
Definition holds (H : hp) (d : dt) (n : nat) (src : mem Z) (p : ptr) : Prop :=
  exists sz m, block p H = Some (sz, m) /\ within (size_of d n) sz = true /\ packed_as d n src m.
Definition room (H : hp) (sz : Z) (p : ptr) : Prop := exists k m, p = Temp k /\ hp_heap H k = Some (sz, m).
Definition full (H : hp) (d : dt) (n : nat) (src : mem Z) (p : ptr) : Prop :=
  exists k m, p = Temp k /\ hp_heap H k = Some (size_of d n, m) /\ packed_as d n src m.
Definition src_ok (H : hp) (b : nat) (d : dt) (n : nat) (src : mem Z) (p : ptr) : Prop :=
  (mcontig (build d) = false /\ full H d n src p) \/ (p = User b /\ mcontig (build d) = true /\ hp_user H b = src).

(* The number of a temporary *)
Definition tmp (p : ptr) : list nat := match p with Temp k => [k] | _ => [] end.

(* Same memory except for the temporaries in [ks] and those made since *)
Definition keeps (ks : list nat) (H H' : hp) : Prop :=
  forall k, (k < hp_next H)%nat -> ~ In k ks -> hp_heap H' k = hp_heap H k.
Definition unborn (H : hp) : Prop := forall k, (hp_next H <= k)%nat -> hp_heap H k = None.

Lemma upd_eq : forall A (f : nat -> A) i x, upd f i x i = x.
Proof. intros. unfold upd. now rewrite Nat.eqb_refl. Qed.
Lemma upd_ne : forall A (f : nat -> A) i x j, j <> i -> upd f i x j = f j.
Proof. intros. unfold upd. destruct (Nat.eqb_spec j i); congruence. Qed.

Lemma size_pos : forall d n, 0 <= size_of d n.
Proof. intros. unfold size_of. lia. Qed.

Lemma full_holds : forall H d n src p, full H d n src p -> holds H d n src p.
Proof.
  intros H d n src p (k & m & -> & E & P). exists (Some (size_of d n)), m. cbn [block]. rewrite E.
  split; [reflexivity|]. split; [|exact P]. cbn [within]. lia.
Qed.
Lemma full_room : forall H d n src p, full H d n src p -> room H (size_of d n) p.
Proof. intros H d n src p (k & m & -> & E & P). exists k, m. auto. Qed.

Lemma packed_self : forall d n src, mcontig (build d) = true -> packed_as d n src src.
Proof.
  intros d n src C. exists src. intros x X. unfold bytes_moved. rewrite C.
  symmetry. apply (pack_with_in Z (run (n * msize (build d)) 0 0) src src x x).
  - apply run_range.
  - unfold run. apply in_map_iff. exists x. split; [f_equal; lia|]. unfold zseq. apply in_map_iff.
    exists (Z.to_nat x). unfold size_of in X. split; [lia|]. apply in_seq. lia.
Qed.
Lemma packed_copied : forall d n src m j, packed_as d n src m -> packed_as d n src (copied (size_of d n) m j).
Proof.
  intros d n src m j (k & P). exists k. intros x X. unfold copied.
  replace ((0 <=? x) && (x <? size_of d n)) with true by lia. now apply P.
Qed.

Lemma src_holds : forall H b d n src p, src_ok H b d n src p -> holds H d n src p.
Proof.
  intros H b d n src p [F|(-> & C & E)]; [now apply full_holds|].
  exists None, src. cbn [block within]. rewrite E. repeat split. now apply packed_self.
Qed.

Lemma unborn_lt : forall H k x, unborn H -> hp_heap H k = Some x -> (k < hp_next H)%nat.
Proof. intros H k x U E. destruct (Nat.lt_ge_cases k (hp_next H)); [assumption|]. rewrite U in E by assumption. discriminate. Qed.

(* memcpy to a temporary *)
Lemma copy_temp : forall H k sz m0 p d n src, hp_heap H k = Some (sz, m0) -> size_of d n <= sz ->
  holds H d n src p -> unborn H ->
  exists H' m, memcpy (Temp k) p (size_of d n) H = Some H' /\ hp_heap H' k = Some (sz, m) /\ packed_as d n src m /\
    hp_user H' = hp_user H /\ hp_next H' = hp_next H /\ keeps [k] H H' /\ unborn H'.
Proof.
  intros H k sz m0 p d n src E L (ss & m & B & W & P) U.
  unfold memcpy. rewrite B. cbn [block]. rewrite E. cbn [within]. rewrite W. replace (size_of d n <=? sz) with true by lia.
  cbn [andb]. eexists _, _. split; [reflexivity|]. unfold store. rewrite E. cbn.
  split; [now rewrite upd_eq|]. split; [apply packed_copied; exact P|]. repeat split.
  - intros j J N. cbn. apply upd_ne. cbn in N. lia.
  - intros j J. cbn in *. rewrite upd_ne; [now apply U|]. pose proof (unborn_lt _ _ _ U E). lia.
Qed.

(* memcpy to a buffer of the program *)
Lemma copy_user : forall H b p d n src, holds H d n src p -> unborn H ->
  exists H' pk, memcpy (User b) p (size_of d n) H = Some H' /\ packed_as d n src pk /\
    hp_user H' b = copied (size_of d n) pk (hp_user H b) /\ (forall b', b' <> b -> hp_user H' b' = hp_user H b') /\
    hp_next H' = hp_next H /\ keeps [] H H' /\ unborn H'.
Proof.
  intros H b p d n src (ss & m & B & W & P) U. unfold memcpy. rewrite B. cbn [block within andb]. rewrite W.
  eexists _, m. split; [reflexivity|]. cbn. repeat split; auto.
  - apply upd_eq.
  - intros b' N. now apply upd_ne.
Qed.

(* putBufferOnWire *)
Lemma wire_ok : forall c H p d n src, holds H d n src p -> unborn H ->
  exists H', on_wire c p (size_of d n) H = Some (Temp (hp_next H), H') /\ full H' d n src (Temp (hp_next H)) /\
    hp_user H' = hp_user H /\ hp_next H' = S (hp_next H) /\ keeps [] H H' /\ unborn H'.
Proof.
  intros c H p d n src HO U.
  set (h1 := snd (alloc (c_junk c) (size_of d n) H)).
  assert (HO1 : holds h1 d n src p).
  { destruct HO as (sz & m & B & W & P). exists sz, m. split; [|auto]. destruct p as [|b|k]; [discriminate|exact B|].
    cbn [block] in *. unfold h1. cbn. destruct (hp_heap H k) as [[z mm]|] eqn:E; [|discriminate].
    rewrite upd_ne; [now rewrite E|]. pose proof (unborn_lt _ _ _ U E). lia. }
  assert (U1 : unborn h1).
  { intros j J. unfold h1 in *. cbn in *. rewrite upd_ne by lia. apply U. lia. }
  assert (E1 : hp_heap h1 (hp_next H) = Some (size_of d n, c_junk c (hp_next H))) by (unfold h1; cbn; apply upd_eq).
  destruct (copy_temp h1 _ _ _ p d n src E1 (Z.le_refl _) HO1 U1) as (H' & m & M & E & P & EU & EN & K & U').
  exists H'. split.
  { destruct p; [destruct HO as (? & ? & ? & _); discriminate| |];
    unfold on_wire, alloc; fold (alloc (c_junk c) (size_of d n) H) in *; unfold h1, alloc in M; cbn [snd] in M; now rewrite M. }
  split; [exists (hp_next H), m; auto|].
  split; [exact EU|]. split; [exact EN|]. split; [|exact U'].
  - intros j J _. rewrite K; [|unfold h1; cbn; lia|cbn; lia]. unfold h1. cbn. apply upd_ne. lia.
Qed.
Lemma wire_null : forall c n H, on_wire c Null n H = Some (Null, H).
Proof. reflexivity. Qed.

Lemma free_ok : forall H k x, hp_heap H k = Some x -> unborn H ->
  exists H', free (Temp k) H = Some H' /\ hp_user H' = hp_user H /\ hp_next H' = hp_next H /\ keeps [k] H H' /\ unborn H'.
Proof.
  intros H k x E U. cbn [free]. rewrite E. eexists. split; [reflexivity|]. cbn. repeat split.
  - intros j J N. cbn. apply upd_ne. cbn in N. lia.
  - intros j J. cbn in *. unfold upd. destruct (Nat.eqb j k); [reflexivity|now apply U].
Qed.

(* fillSendBuffer *)
Lemma fill_ok : forall c H b d n, blocks_pos d -> unborn H ->
  exists H', fill c b d n H = Some (Temp (hp_next H), H') /\ full H' d n (hp_user H b) (Temp (hp_next H)) /\
    hp_user H' = hp_user H /\ hp_next H' = S (hp_next H) /\ keeps [] H H' /\ unborn H'.
Proof.
  intros c H b d n B U. unfold fill. destruct (mcontig (build d)) eqn:C.
  - assert (HO : holds H d n (hp_user H b) (User b)).
    { exists None, (hp_user H b). cbn. repeat split. now apply packed_self. }
    destruct (wire_ok c H (User b) d n _ HO U) as (H' & W & R). exists H'. split; [|exact R].
    unfold on_wire in W. destruct (alloc (c_junk c) (size_of d n) H) as (p, h1) eqn:A.
    destruct (memcpy p (User b) (size_of d n) h1); congruence.
  - unfold alloc, packs. cbn [block hp_heap hp_user]. rewrite upd_eq.
    assert (IB : in_block (packn (build d) n) (Some (size_of d n)) = true).
    { cbn [in_block]. apply forallb_forall. intros e He.
      destruct (bytes_range (build d) n (build_wf d B)) as (_ & R). unfold bytes_moved in R. rewrite C in R.
      specialize (R (fst e) (in_map fst _ _ He)). unfold size_of. apply andb_true_iff. split; [apply Z.leb_le|apply Z.ltb_lt]; lia. }
    rewrite IB. eexists. split; [reflexivity|]. unfold store. cbn [hp_heap]. rewrite upd_eq. cbn. split.
    { eexists _, _. split; [reflexivity|]. cbn. rewrite upd_eq. split; [reflexivity|].
      eexists. intros x _. unfold bytes_moved. rewrite C. reflexivity. }
    repeat split.
    + intros j J _. cbn. rewrite !upd_ne by lia. reflexivity.
    + intros j J. cbn in *. rewrite !upd_ne by lia. apply U. lia.
Qed.

(* ---------- requests ---------- *)

Definition target (h : list pobs) (q : rreq) (b : nat) (d : dt) (n : nat) (dst : mem Z) : Prop :=
  In (ORecv (q_id q) b d n dst) h /\ q_type q = d /\ q_count q = n /\ q_final q = User b.
(* Before the data arrive, and after *)
Definition idle_q (H : hp) (q : rreq) (b : nat) (d : dt) (n : nat) (dst : mem Z) : Prop :=
  hp_user H b = dst /\ if mcontig (build d) then q_recv q = User b else room H (size_of d n) (q_recv q).
Definition filled_q (H : hp) (d1 : dt) (n1 : nat) (src : mem Z) (q : rreq) (b : nat) (d : dt) (n : nat) (dst : mem Z) : Prop :=
  if mcontig (build d)
  then q_recv q = User b /\ exists pk, packed_as d1 n1 src pk /\ hp_user H b = copied (size_of d1 n1) pk dst
  else hp_user H b = dst /\ exists k m, q_recv q = Temp k /\ hp_heap H k = Some (size_of d n, m) /\ packed_as d1 n1 src m.
Definition fitting (d1 : dt) (n1 : nat) (d2 : dt) (n2 : nat) : Prop :=
  size_of d1 n1 <= size_of d2 n2 /\ (mcontig (build d2) = true \/ (n1 <= n2)%nat).

(* Changes of memory by work on a request: its buffer [b] and its temporary *)
Definition other_users (b : nat) (H H' : hp) : Prop := forall b', b' <> b -> hp_user H' b' = hp_user H b'.

Lemma copy_req : forall H p d1 n1 src q b d n dst, idle_q H q b d n dst -> fitting d1 n1 d n ->
  holds H d1 n1 src p -> unborn H ->
  exists H', memcpy (q_recv q) p (size_of d1 n1) H = Some H' /\ filled_q H' d1 n1 src q b d n dst /\
    other_users b H H' /\ hp_next H' = hp_next H /\ keeps (tmp (q_recv q)) H H' /\ unborn H'.
Proof.
  intros H p d1 n1 src q b d n dst (EU & Q) (L & _) HO U. unfold filled_q. destruct (mcontig (build d)).
  - rewrite Q. destruct (copy_user H b p d1 n1 src HO U) as (H' & pk & M & P & E & O & N & K & U').
    exists H'. rewrite <- EU. repeat split; auto. exists pk. auto.
  - destruct Q as (k & m0 & -> & E0). destruct (copy_temp H k _ _ p d1 n1 src E0 L HO U) as (H' & m & M & E & P & EU' & N & K & U').
    exists H'. rewrite EU'. repeat split; auto.
    + exists k, m. auto.
    + intros b' _. now rewrite EU'.
Qed.

Lemma unpack_ok : forall H d1 n1 src q b d n dst, filled_q H d1 n1 src q b d n dst -> fitting d1 n1 d n ->
  blocks_pos d -> unborn H -> q_type q = d -> q_final q = User b -> forall m, g_count m = Z.of_nat n1 ->
  exists H', finalize m q H = Some H' /\ received d1 n1 src d dst (contents (q_final q) H') /\
    contents (q_final q) H' = hp_user H' b /\
    other_users b H H' /\ hp_next H' = hp_next H /\ keeps (tmp (q_recv q)) H H' /\ unborn H'.
Proof.
  intros H d1 n1 src q b d n dst F (_ & L) B U T Q m M. unfold finalize, filled_q in *. rewrite T, Q, M, Nat2Z.id.
  destruct (mcontig (build d)) eqn:C.
  - destruct F as (E & pk & P & EU). exists H. split; [reflexivity|]. split; [|repeat split; auto; now intros ? ?].
    exists pk. split; [exact P|]. intros x. rewrite C. cbn. rewrite EU. reflexivity.
  - destruct F as (EU & k & mm & E & EH & P). rewrite E.
    assert (N1 : (n1 <= n)%nat) by (destruct L; congruence).
    assert (IB : in_block (packn (build d) n1) (Some (size_of d n)) = true).
    { cbn [in_block]. apply forallb_forall. intros e He.
      destruct (bytes_range (build d) n1 (build_wf d B)) as (_ & R). unfold bytes_moved in R. rewrite C in R.
      specialize (R (fst e) (in_map fst _ _ He)). unfold size_of. apply andb_true_iff. split; [apply Z.leb_le|apply Z.ltb_lt]; nia. }
    unfold unpacks. cbn [block]. rewrite EH, IB. set (h1 := store _ _ H).
    assert (EH1 : hp_heap h1 k = Some (size_of d n, mm)) by exact EH.
    assert (U1 : unborn h1) by exact U.
    destruct (free_ok h1 k _ EH1 U1) as (H' & FR & EU' & N & K & U').
    exists H'. split; [exact FR|]. cbn [contents block]. rewrite EU'. split.
    { exists mm. split; [exact P|]. intros x. rewrite C. unfold h1. cbn. rewrite upd_eq, EU. reflexivity. }
    repeat split; auto.
    intros b' Hb. rewrite EU'. unfold h1. cbn. now apply upd_ne.
Qed.
