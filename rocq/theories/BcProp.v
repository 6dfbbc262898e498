(** C30: broadcast gives every rank the data of the root. *)
From Coq Require Import List Arith Lia Bool.
From Verif Require Import RdModel RdProof PhModel PhProof BcModel BcProof.
Import ListNotations.

(** After a broadcast of [nelems] elements from [root]: the first [nelems]
    elements of the buffer [b] of rank [p] are those of the root, the rest of the
    buffer is as before. *)
Definition bcast_result {T} (root nelems : nat) (buf : nat -> nat -> T) (p : nat) (b : nat -> T) : Prop :=
  forall i, b i = if i <? nelems then buf root i else buf p i.

(** For any number of ranks, any root and any interleaving: the broadcast makes
    a bounded number of steps, it only stops when every rank is through, then no
    message is left over and every rank has the data of the root. *)
Theorem bcast_delivers : forall (T : Type) n root nelems (buf : nat -> nat -> T), 2 <= n -> root < n ->
  let g := bcast_prog n root nelems buf in
  (exists B, forall k c, pexec g k c -> k <= B) /\
  (forall k c, pexec g k c -> pstuck g c ->
     p_net c = [] /\
     forall p, p < n -> pdone (p_proc c p) /\ bcast_result root nelems buf p (w_mem (p_proc c p))).
Proof.
  intros T n root nelems buf Hn Hr g. split.
  - eexists. intros k c H. exact (phases_bounded g k c H).
  - intros k c Hx Hs.
    destruct (phases_complete g _ (bc_balanced n root nelems Hn Hr buf) (bc_single n root nelems Hn Hr buf)
                (bc_inside n root nelems Hn Hr buf) (bc_ordered n root nelems Hn Hr buf) k c Hx Hs) as (Hd & Hnet).
    split; [exact Hnet|]. intros p Hp. split; [exact (Hd p Hp)|].
    pose proof (phases_result g _ _ (bc_annotated n root nelems Hn Hr buf) k c p Hx Hp (Hd p Hp)) as (R1 & R2).
    intros i. destruct (Nat.ltb_spec i nelems) as [Hi|Hi]; [|apply R2; exact Hi].
    apply R1; [exact Hi|]. right. cbn [g bcast_prog pg_ph]. unfold bc_phases. destruct (p =? root); cbn [length]; lia.
Qed.
Print Assumptions bcast_delivers.

(** Also while the broadcast is running a rank that is through has the data. *)
Theorem bcast_early : forall (T : Type) n root nelems (buf : nat -> nat -> T) k c p, 2 <= n -> root < n -> p < n ->
  pexec (bcast_prog n root nelems buf) k c -> pdone (p_proc c p) ->
  bcast_result root nelems buf p (w_mem (p_proc c p)).
Proof.
  intros T n root nelems buf k c p Hn Hr Hp Hx Hd.
  pose proof (phases_result _ _ _ (bc_annotated n root nelems Hn Hr buf) k c p Hx Hp Hd) as (R1 & R2).
  intros i. destruct (Nat.ltb_spec i nelems) as [Hi|Hi]; [|apply R2; exact Hi].
  apply R1; [exact Hi|]. right. cbn [bcast_prog pg_ph]. unfold bc_phases. destruct (p =? root); cbn [length]; lia.
Qed.
Print Assumptions bcast_early.

(** Six ranks, root 4: 4 -> 2, 0, 5 and 0 -> 1, 2 -> 3; there is a complete
    execution and it delivers the data of rank 4. *)
Example ex_bcast_tree : map (fun p => bc_out 6 4 p) [0; 1; 2; 3; 4; 5] = [[1]; []; [3]; []; [2; 0; 5]; []].
Proof. vm_compute. reflexivity. Qed.
Definition ex_buf (p i : nat) : nat := 10 * p + i.
Example ex_bcast_run : exists k c, pexec (bcast_prog 6 4 3 ex_buf) k c /\ pstuck (bcast_prog 6 4 3 ex_buf) c /\
  forall p, p < 6 -> map (w_mem (p_proc c p)) [0; 1; 2; 3] = [40; 41; 42; 10 * p + 3].
Proof.
  destruct (phases_run (bcast_prog 6 4 3 ex_buf) _ (bc_balanced 6 4 3 ltac:(lia) ltac:(lia) ex_buf)
    (bc_single 6 4 3 ltac:(lia) ltac:(lia) ex_buf) (bc_inside 6 4 3 ltac:(lia) ltac:(lia) ex_buf)
    (bc_ordered 6 4 3 ltac:(lia) ltac:(lia) ex_buf)) as (k & c & Hx & Hs).
  exists k, c. split; [exact Hx|]. split; [exact Hs|]. intros p Hp.
  destruct (bcast_delivers nat 6 4 3 ex_buf ltac:(lia) ltac:(lia)) as (_ & H).
  destruct (H k c Hx Hs) as (_ & H2). destruct (H2 p Hp) as (_ & R). cbn [map]. rewrite !R. reflexivity.
Qed.
