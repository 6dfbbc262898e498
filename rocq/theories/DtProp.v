(** C37, C85, C86: derived datatypes. *)
From Coq Require Import List Arith ZArith Bool Lia.
From Verif Require Import DtModel DtSpec DtProof.
Import ListNotations.
Local Open Scope Z_scope.

(** ** C85: size and extent *)

(** MPI_Type_size is the number of bytes the type selects, for every type. *)
Theorem type_size_correct : forall d, msize (build d) = length (tmap d).
Proof. exact size_build. Qed.
Print Assumptions type_size_correct.

Example type_size_ex :
  msize (build (DStruct [(2%nat, 0, DVec 3 2 4 (DPrim 4)); (1%nat, 100, DIndexed [(2%nat, 5); (0%nat, 9); (1%nat, 1)] (DPrim 8))])) = 72%nat
  /\ length (tmap (DStruct [(2%nat, 0, DVec 3 2 4 (DPrim 4)); (1%nat, 100, DIndexed [(2%nat, 5); (0%nat, 9); (1%nat, 1)] (DPrim 8))])) = 72%nat.
Proof. split; reflexivity. Qed.

(** MPI_Type_extent is right for blocks without gaps and contiguous types of them.
    Missing: vectors and indexed types, see the refutations. *)
Theorem type_extent_partial : forall d,
  solid d -> mext (build d) = dext d /\ forall c, mext (build (DContig c d)) = dext (DContig c d).
Proof.
  intros d S. destruct (solid_spec d S) as (T & X & _).
  assert (D : dext d = Z.of_nat (msize (build d))) by (unfold dext; rewrite T at 1; apply hull_zseq).
  split; [congruence|]. intros c. cbn [build mext]. unfold dext at 1. cbn [tmap].
  change (hull (tmap d)) with (dext d). rewrite D. rewrite T at 1. rewrite copies_zseq, hull_zseq, X. lia.
Qed.
Print Assumptions type_extent_partial.

Example type_extent_ex : solid (DStruct [(2%nat, 0, DPrim 4); (1%nat, 8, DPrim 8)])
  /\ mext (build (DContig 5 (DStruct [(2%nat, 0, DPrim 4); (1%nat, 8, DPrim 8)]))) = 80.
Proof. split; [|reflexivity]. cbn. repeat split; try lia. discriminate. Qed.

(** The extent of a vector is taken to be its stride, that of an indexed type the sum
    of the displacements. *)
Theorem type_extent_refuted :
  (exists c s n, (2 <= c)%nat /\ mext (build (DVec c 1 s (DPrim n))) <> dext (DVec c 1 s (DPrim n)))
  /\ exists l n, mext (build (DIndexed l (DPrim n))) <> dext (DIndexed l (DPrim n)).
Proof.
  split.
  - exists 2%nat, 2, 4%nat. split; [lia|]. vm_compute. discriminate.
  - exists [(1%nat, 0)], 4%nat. vm_compute. discriminate.
Qed.
Print Assumptions type_extent_refuted.

(** ** C37: what a transfer moves *)

(** With one type on both sides, every byte of the receive buffer afterwards either
    is the sender's byte of the same offset or has not been touched, for every type
    whose vector blocks are not empty; which of the two depends on the offset only. *)
Theorem transfer_same_offset : forall d n, blocks_pos d ->
  exists sel : Z -> bool, forall A (junk src dst : mem A) x,
  transfer (build d) (build d) n junk src dst x = if sel x then src x else dst x.
Proof.
  intros d n B. exists (fun x => if in_dec Z.eq_dec x (map snd (bytes_moved (build d) n)) then true else false).
  intros A junk src dst x. destruct (bytes_range (build d) n (build_wf d B)) as (ND & _).
  destruct (transfer_same A (bytes_moved (build d) n) junk src dst x ND) as (T1 & T2). unfold transfer.
  destruct (in_dec Z.eq_dec x (map snd (bytes_moved (build d) n))); auto.
Qed.
Print Assumptions transfer_same_offset.

(** The offsets are those MPI defines for any number of blocks without gaps, and for
    one vector of single elements. Missing: everything else, see the refutations. *)
Theorem transfer_exact_partial : forall d n, solid d \/ (spread d /\ n = 1%nat) ->
  forall A (junk src dst : mem A) x,
  (In x (tmapn d n) -> transfer (build d) (build d) n junk src dst x = src x)
  /\ (~ In x (tmapn d n) -> transfer (build d) (build d) n junk src dst x = dst x).
Proof.
  intros d n H A junk src dst x.
  assert (E : map snd (bytes_moved (build d) n) = tmapn d n /\ blocks_pos d).
  { destruct H as [S|(S & ->)].
    - split; [now apply solid_bytes|now apply solid_pos].
    - split; [|now apply spread_pos]. unfold tmapn. rewrite copies_1. now apply spread_bytes. }
  destruct E as (E & B). rewrite <- E. unfold transfer. apply transfer_same.
  apply (bytes_range (build d) n (build_wf d B)).
Qed.
Print Assumptions transfer_exact_partial.

Example transfer_ex :
  let d := DHvec 2 1 100 (DVec 3 1 2 (DStruct [(1%nat, 0, DPrim 2); (1%nat, 2, DPrim 1)])) in
  spread d /\ tmapn d 1 = [0; 1; 2; 6; 7; 8; 12; 13; 14; 100; 101; 102; 106; 107; 108; 112; 113; 114]
  /\ map (transfer (build d) (build d) 1 (fun _ => -1) (fun x => x) (fun _ => -2)) [2; 3; 108; 109]
     = [2; -2; 108; -2].
Proof.
  cbv zeta. split; [|split; reflexivity].
  cbn [spread solid]. split; [reflexivity|]. right. split; [|reflexivity]. split; [reflexivity|].
  cbn. repeat split; try lia. discriminate.
Qed.

(** A type and count for which a byte that should arrive does not, or a byte is
    written that should not be. *)
Definition misses (d : dt) (n : nat) : Prop :=
  exists x, In x (tmapn d n) /\
    transfer (build d) (build d) n (fun _ => 7) (fun _ => 1) (fun _ => 0) x <> 1.
Definition spoils (d : dt) (n : nat) : Prop :=
  exists x, ~ In x (tmapn d n) /\
    transfer (build d) (build d) n (fun _ => 7) (fun _ => 1) (fun _ => 0) x <> 0.

(** MPI_Type_contiguous of two 4-byte elements moves bytes 0-3 and 8-11. *)
Theorem contiguous_refuted : exists c n, misses (DContig c (DPrim n)) 1 /\ spoils (DContig c (DPrim n)) 1.
Proof.
  exists 2%nat, 4%nat. split; [exists 4|exists 8]; (split; [vm_compute; intuition discriminate|vm_compute; discriminate]).
Qed.
Print Assumptions contiguous_refuted.

(** Of each block of a vector only the first element is moved. *)
Theorem vector_block_refuted : exists c b s n, misses (DVec c b s (DPrim n)) 1.
Proof.
  exists 2%nat, 2%nat, 3, 4%nat. exists 4. split; [vm_compute; intuition discriminate|vm_compute; discriminate].
Qed.
Print Assumptions vector_block_refuted.

(** Displacements of indexed types and structs are ignored. *)
Theorem indexed_refuted : exists l n, misses (DIndexed l (DPrim n)) 1 /\ spoils (DIndexed l (DPrim n)) 1.
Proof.
  exists [(1%nat, 0); (1%nat, 2)], 4%nat.
  split; [exists 8|exists 4]; (split; [vm_compute; intuition discriminate|vm_compute; discriminate]).
Qed.
Print Assumptions indexed_refuted.

Theorem struct_padding_refuted : exists l, misses (DStruct l) 1 /\ spoils (DStruct l) 1.
Proof.
  exists [(1%nat, 0, DPrim 4); (1%nat, 8, DPrim 8)].
  split; [exists 12|exists 4]; (split; [vm_compute; intuition discriminate|vm_compute; discriminate]).
Qed.
Print Assumptions struct_padding_refuted.

(** Two elements of a vector type overlap. *)
Theorem vector_count_refuted : exists c s n, misses (DVec c 1 s (DPrim n)) 2.
Proof.
  exists 2%nat, 2, 4%nat. exists 20. split; [vm_compute; intuition discriminate|vm_compute; discriminate].
Qed.
Print Assumptions vector_count_refuted.

(** The receiver unpacks with the sender's count: two ints received as one vector of
    two ints also write behind the receive buffer. *)
Theorem recv_count_refuted : exists d1 n1 d2 n2 x,
  length (tmapn d1 n1) = length (tmapn d2 n2) /\ spread d2 /\ n2 = 1%nat
  /\ (forall y, In y (tmapn d2 n2) -> y < x)
  /\ transfer (build d1) (build d2) n1 (fun _ => 7) (fun _ => 1) (fun _ => 0) x <> 0.
Proof.
  exists (DPrim 4), 2%nat, (DHvec 2 1 8 (DPrim 4)), 1%nat, 16.
  split; [reflexivity|]. split; [cbn; repeat split; left; lia|]. split; [reflexivity|].
  split; [vm_compute; intuition subst; reflexivity|]. vm_compute. discriminate.
Qed.
Print Assumptions recv_count_refuted.

(** ** C86: packing stays within the packed buffer *)

(** The buffer of [n * size] bytes allocated for packing is not overrun. Missing:
    vectors of empty blocks, see the refutation. *)
Theorem pack_in_bounds_partial : forall d n m, blocks_pos d -> In m (bytes_moved (build d) n) ->
  0 <= fst m < Z.of_nat (n * length (tmap d)).
Proof.
  intros d n m B H. rewrite <- size_build.
  apply (bytes_range (build d) n (build_wf d B)). now apply in_map.
Qed.
Print Assumptions pack_in_bounds_partial.

Example pack_in_bounds_ex :
  blocks_pos (DIndexed [(2%nat, 3); (1%nat, 0)] (DVec 2 3 4 (DPrim 2)))
  /\ In (12, 8) (bytes_moved (build (DIndexed [(2%nat, 3); (1%nat, 0)] (DVec 2 3 4 (DPrim 2)))) 1).
Proof. split; [cbn; lia|]. vm_compute. intuition. Qed.

Theorem pack_overrun_refuted : exists d n m,
  In m (bytes_moved (build d) n) /\ ~ fst m < Z.of_nat (n * length (tmap d)).
Proof.
  exists (DVec 2 0 1 (DPrim 4)), 1%nat, (0, 0). split; [vm_compute; now left|]. vm_compute. discriminate.
Qed.
Print Assumptions pack_overrun_refuted.
