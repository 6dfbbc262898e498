(** Recursive-halving allreduce: sumi/allreduce.cc, with the folding of ranks
    onto a power of two (VirtualRankMap, sumi/collective_actor.cc:900-927). *)
From Coq Require Import List Arith Lia Bool.
From Verif Require Import RdModel.
Import ListNotations.

(** VirtualRankMap::realToVirtual, sumi/collective_actor.cc:900-912: the roles
    of a rank; [vn] is the power of two. *)
Definition real_to_virtual (n vn rank : nat) : list nat :=
  let two := vn - n in
  if two <=? rank then [two + rank] else [2 * rank; 2 * rank + 1].

(** VirtualRankMap::virtualToReal, sumi/collective_actor.cc:914-927. *)
Definition virtual_to_real (n vn v : nat) : nat :=
  let two := vn - n in
  if 2 * two <=? v then v - two else v / 2.

(** One exchange of a role: virtual partner, regions sent and received. *)
Record wact := { w_vp : nat; w_so : nat; w_sn : nat; w_ro : nat; w_rn : nat }.

(** WilkeAllreduceActor::isLowerPartner, sumi/allreduce.cc:231-236. *)
Definition is_low (v gap : nat) : bool := (v / gap) mod 2 =? 0.

(** The reducing loop of WilkeAllreduceActor::initDag for one role,
    sumi/allreduce.cc:136-192. *)
Fixpoint wilke_loop (k v gap off ne : nat) : list wact :=
  match k with
  | 0 => []
  | S k' =>
      let a :=
        if is_low v gap then
          let sn := ne / 2 in
          {| w_vp := v + gap; w_so := off + ne - sn; w_sn := sn; w_ro := off; w_rn := ne - sn |}
        else
          let sn := ne / 2 + ne mod 2 in
          {| w_vp := v - gap; w_so := off; w_sn := sn; w_ro := off + sn; w_rn := ne - sn |} in
      a :: wilke_loop k' v (gap * 2) (w_ro a) (w_rn a)
  end.

(** The exchanges of one role.  Round [r] of the first phase is exchange [r];
    the second phase mirrors them: what was received is sent and what was sent
    is received (sumi/allreduce.cc:194-223).
    DagCollectiveActor::isSharedRole (sumi/collective_actor.h:397-404): an
    exchange with another role of the same rank is left out. *)
Definition wilke_act (L ne v r : nat) : option (bool * wact) :=
  if r <? L then option_map (pair true) (nth_error (wilke_loop L v 1 0 ne) r)
  else if r <? 2 * L then
    match nth_error (wilke_loop L v 1 0 ne) (2 * L - 1 - r) with
    | Some a => Some (false, {| w_vp := w_vp a; w_so := w_ro a; w_sn := w_rn a;
                                w_ro := w_so a; w_rn := w_sn a |})
    | None => None
    end
  else None.

Definition shared_role (n vn v vp : nat) : bool :=
  existsb (Nat.eqb vp) (real_to_virtual n vn (virtual_to_real n vn v)).

Section Ar.
Context {T : Type}.
Variable op : T -> T -> T.

(** The reduction applied to a received buffer: dst[i] = op(dst[i], src[i])
    (ReduceOp::op, sumi/comm_functions.h:171-183; DefaultSlicer::unpackReduce,
    sumi/collective_actor.cc:970-978). *)
Definition breduce (b : nat -> T) (off : nat) (l : list T) : nat -> T :=
  fun i => if i <? off then b i
           else match nth_error l (i - off) with Some x => op (b i) x | None => b i end.

(** Whether the exchange of role [v] in round [r] takes place. *)
Definition ar_partner (n ne r v : nat) : option nat :=
  let vn := pow2_of n in
  match wilke_act (log2_of n) ne v r with
  | Some (_, a) => if shared_role n vn v (w_vp a) then None else Some (w_vp a)
  | None => None
  end.

(** WilkeAllreduceActor::initBuffers, sumi/allreduce.cc:68-85: copy the send
    buffer into the result buffer; [None] as source means in place. *)
Definition ar_init (ne : nat) (dst : nat -> T) (src : option (nat -> T)) : nat -> T :=
  match src with None => dst | Some b => bwrite dst 0 (bread b 0 ne) end.

(** The schedule over the virtual ranks ([src]: the initialised result buffers
    of the ranks); ShModel.v runs it with one buffer per rank.
    SIMPLIFIED: contiguous data types only (fan_in_recv_type in_place,
    fan_in_send_type in_place, sumi/allreduce.cc:105-116). *)
Definition ar_sched (n ne : nat) (src : nat -> nat -> T) : sched (nat -> T) (list T) := {|
  sc_np := pow2_of n;
  sc_nr := 2 * log2_of n;
  sc_to := ar_partner n ne;
  sc_from := ar_partner n ne;
  sc_pre := fun _ _ b => b;
  sc_out := fun r v b => match wilke_act (log2_of n) ne v r with
                         | Some (_, a) => bread b (w_so a) (w_sn a) | None => [] end;
  sc_in := fun r v b m => match wilke_act (log2_of n) ne v r with
                          | Some (true, a) => breduce b (w_ro a) (firstn (w_rn a) m)
                          | Some (false, a) => bwrite b (w_ro a) (firstn (w_rn a) m)
                          | None => b end;
  sc_post := fun _ _ b => b;
  sc_init := fun v => src (virtual_to_real n (pow2_of n) v) |}.
End Ar.
