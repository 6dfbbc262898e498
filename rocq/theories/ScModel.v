(** Binary-tree scatter: class BtreeScatterActor, sumi/scatter.cc:51-224.

    Of every rank two buffers are modelled: recv_buffer_, a workspace of
    midpoint_*nelems_ elements, and result_buffer_.  The send buffer of the root
    is only read; at other ranks send_buffer_ is recv_buffer_ (94-95). *)
From Coq Require Import List Arith Lia Bool.
From Verif Require Import RdModel PhModel.
Import ListNotations.

Record sbuf (T : Type) := { s_rcv : nat -> T; s_res : nat -> T }.
Arguments s_rcv {T}. Arguments s_res {T}.

Section Scatter.
Context {T : Type}.
Variables (n root nelems : nat).
Variable src : nat -> T.

(** initTree, scatter.cc:51-56. *)
Definition sc_mid : nat := midpoint_of n.

Definition set_rcv (b : sbuf T) (x : nat -> T) : sbuf T := {| s_rcv := x; s_res := s_res b |}.
Definition set_res (b : sbuf T) (x : nat -> T) : sbuf T := {| s_rcv := s_rcv b; s_res := x |}.

(** send_ty, scatter.cc:148-149: the root sends from its send buffer
    (temp_send), the others from the receive buffer (prev_recv); see
    DagCollectiveActor::getSendBuffer, sumi/collective_actor.cc:673-697. *)
Definition sc_send (me rnd q off c : nat) : psend (sbuf T) (list T) :=
  (rnd, q, fun b => bread (if me =? root then src else s_rcv b) (off * nelems) (nelems * c)).

(** Receives at offset 0, in place into the result buffer or into the receive
    buffer (packed_temp_buf); see getRecvbuffer and dataRecved,
    sumi/collective_actor.cc:661-671, 600-625. *)
Definition sc_recv (in_place : bool) (rnd q c : nat) : precv (sbuf T) (list T) :=
  (rnd, q, fun b v =>
     let l := firstn (nelems * c) v in
     if in_place then set_res b (bwrite (s_res b) 0 l) else set_rcv b (bwrite (s_rcv b) 0 l)).

(** The loop of initDag, scatter.cc:187-222; every action depends on the one
    before. *)
Fixpoint sc_loop (fuel me gap rnd : nat) : list (phase (sbuf T) (list T)) :=
  match fuel with
  | 0 => []
  | S f =>
      if gap =? 0 then []
      else (if me mod gap =? 0
            then if (me / gap) mod 2 =? 0
                 then if me + gap <? n
                      then [ {| ph_loc := fun b => b;
                                ph_snd := [sc_send me rnd (me + gap) gap (Nat.min (n - (me + gap)) gap)];
                                ph_rcv := [] |} ]
                      else []
                 else [ {| ph_loc := fun b => b; ph_snd := [];
                           ph_rcv := [sc_recv (gap =? 1) rnd (me - gap) (Nat.min (n - me) gap)] |} ]
            else []) ++ sc_loop f me (gap / 2) (S rnd)
  end.

(** First part of initDag, scatter.cc:151-167. *)
Definition sc_half (me : nat) : list (phase (sbuf T) (list T)) :=
  if root =? sc_mid then []
  else (if me =? root
        then [ {| ph_loc := fun b => b;
                  ph_snd := [sc_send me 0 sc_mid sc_mid (Nat.min (n - sc_mid) sc_mid)]; ph_rcv := [] |} ]
        else []) ++
       (if me =? sc_mid
        then [ {| ph_loc := fun b => b; ph_snd := [];
                  ph_rcv := [sc_recv false 0 root (Nat.min (n - sc_mid) sc_mid)] |} ]
        else []).

(** The extra send of a root other than 0, scatter.cc:169-183.  [prev] is not
    advanced by the root, so this send is not ordered with the first action of
    the loop.
    SIMPLIFIED: later actions of the loop wait for it; a root that has later
    actions is even. *)
Definition sc_attach (s : psend (sbuf T) (list T)) (l : list (phase (sbuf T) (list T))) :=
  match l with
  | [] => [ {| ph_loc := fun b => b; ph_snd := [s]; ph_rcv := [] |} ]
  | h :: k => {| ph_loc := ph_loc h; ph_snd := s :: ph_snd h; ph_rcv := ph_rcv h |} :: k
  end.
Definition sc_rest (me : nat) : list (phase (sbuf T) (list T)) :=
  let loop := sc_loop (S n) me (sc_mid / 2) 1 in
  if root =? 0 then loop
  else if me =? root then sc_attach (sc_send me 0 0 0 sc_mid) loop
  else if me =? 0
       then {| ph_loc := fun b => b; ph_snd := []; ph_rcv := [sc_recv false 0 root sc_mid] |} :: loop
       else loop.

(** finalizeBuffers, scatter.cc:106-126. *)
Definition sc_finalize (me : nat) (b : sbuf T) : sbuf T :=
  if (me =? root) || negb (me mod 2 =? 0) then b
  else set_res b (bwrite (s_res b) 0 (bread (s_rcv b) 0 nelems)).

Definition sc_phases (me : nat) : list (phase (sbuf T) (list T)) :=
  sc_half me ++ sc_rest me ++ [ {| ph_loc := sc_finalize me; ph_snd := []; ph_rcv := [] |} ].

(** initBuffers, scatter.cc:58-104. *)
Definition sc_init (buf : nat -> sbuf T) (me : nat) : sbuf T :=
  if me =? root
  then if negb (root =? 0)
       then if root =? sc_mid
            then set_rcv (buf me) (bwrite (s_rcv (buf me)) 0 (bread src (sc_mid * nelems) ((n - sc_mid) * nelems)))
            else buf me
       else set_res (buf me) (bwrite (s_res (buf me)) 0 (bread src 0 nelems))
  else buf me.

Definition scatter_prog (buf : nat -> sbuf T) : prog (sbuf T) (list T) :=
  {| pg_np := n; pg_ph := sc_phases; pg_init := sc_init buf |}.
End Scatter.
