(** Bruck allgatherv: class BruckAllgathervActor, sumi/allgatherv.cc:61-220 and
    sumi/allgatherv.h:60-92. *)
From Coq Require Import List Arith Lia Bool.
From Verif Require Import RdModel AgModel.
Import ListNotations.

Section Agv.
(** Number of ranks (dom_nproc_) and recv_counts_. *)
Variables (n : nat) (counts : nat -> nat).

(** The loop of the constructor, allgatherv.h:65-70: total_nelems_ and, at index
    dom_me_, my_offset_. *)
Fixpoint av_sum (k : nat) : nat := match k with 0 => 0 | S j => av_sum j + counts j end.
Definition av_total : nat := av_sum n.
Definition av_offset (me : nat) : nat := av_sum me.

(** nelems_to_recv, allgatherv.cc:87-96. *)
Fixpoint av_recv (partner gap : nat) : nat :=
  match gap with 0 => 0 | S p => av_recv partner p + counts ((partner + p) mod n) end.

(** allgatherv.cc:103-120: the loop is the one of RecursiveDoubling::computeTree. *)
Definition av_rounds : nat := if n <? pow2_of n then log2_of n - 1 else log2_of n.
Definition av_extra : nat := if n <? pow2_of n then n - pow2_of n / 2 else 0.

(** The loop of initDag, allgatherv.cc:136-163; also returns the final
    partner_gap and nelems_recvd. *)
Fixpoint av_loop (k me gap recvd : nat) : list xact * nat * nat :=
  match k with
  | 0 => ([], gap, recvd)
  | S k' =>
      let rp := (me + gap) mod n in
      let x := {| x_sp := (me + n - gap) mod n; x_rp := rp;
                  x_so := 0; x_sn := recvd; x_ro := recvd; x_rn := av_recv rp gap |} in
      let '(l, g, r) := av_loop k' me (gap * 2) (recvd + av_recv rp gap) in
      (x :: l, g, r)
  end.

(** initDag, allgatherv.cc:98-184. *)
Definition av_dag (me : nat) : list xact :=
  let '(l, gap, recvd) := av_loop av_rounds me 1 (counts me) in
  if av_extra =? 0 then l
  else let sp := (me + n - gap) mod n in
       l ++ [{| x_sp := sp; x_rp := (me + gap) mod n;
                x_so := 0; x_sn := av_total - av_recv sp gap;
                x_ro := recvd; x_rn := av_total - recvd |}].

Context {T : Type}.

(** initBuffers, allgatherv.cc:61-80; [None] as source means in place. *)
Definition av_init (me : nat) (dst : nat -> T) (src : option (nat -> T)) : nat -> T :=
  match src with
  | None => if me =? 0 then dst else bwrite dst 0 (bread dst (av_offset me) (counts me))
  | Some s => bwrite dst 0 (bread s 0 (counts me))
  end.

(** finalize, allgatherv.cc:192-220: rotate by my offset. *)
Definition av_finalize (me : nat) (b : nat -> T) : nat -> T :=
  if me =? 0 then b
  else bwrite (bwrite b (av_offset me) (bread b 0 (av_total - av_offset me)))
              0 (bread b (av_total - av_offset me) (av_offset me)).

(** The schedule; see bruck_sched in AgModel.v. *)
Definition av_sched (dst : nat -> nat -> T) (src : nat -> option (nat -> T)) : sched (nat -> T) (list T) := {|
  sc_np := n;
  sc_nr := length (av_dag 0);
  sc_to := fun r p => option_map x_sp (nth_error (av_dag p) r);
  sc_from := fun r p => option_map x_rp (nth_error (av_dag p) r);
  sc_pre := fun _ _ b => b;
  sc_out := fun r p b => match nth_error (av_dag p) r with
                         | Some x => bread b (x_so x) (x_sn x) | None => [] end;
  sc_in := fun r p b m => match nth_error (av_dag p) r with
                          | Some x => bwrite b (x_ro x) (firstn (x_rn x) m) | None => b end;
  sc_post := fun _ _ b => b;
  sc_init := fun p => av_init p (dst p) (src p) |}.
End Agv.
