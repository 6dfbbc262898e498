(* What is said about the NIC, in terms of the messages given to it, the credits it got
   back and the packets it put on the wire. *)
From Coq Require Import List ZArith Bool Arith Lia.
From Verif Require Import PtModel SjModel.
Import ListNotations.
Local Open Scope Z_scope.

(* Messages in the order they were given to the NIC; packets in the order they were injected *)
Fixpoint sent (h : list nobs) : list nmsg :=
  match h with [] => [] | Sent m :: r => sent r ++ [m] | _ :: r => sent r end.
Fixpoint injected (h : list nobs) : list npkt :=
  match h with [] => [] | Injected p :: r => injected r ++ [p] | _ :: r => injected r end.
Fixpoint credits (h : list nobs) : Z :=
  match h with [] => 0 | Credited n :: r => credits r + n | _ :: r => credits r end.

(* Offset, length and tail mark *)
Definition shape (p : npkt) : Z * Z * bool := (np_off p, np_len p, np_tail p).
(* Packets of one message *)
Definition of_msg (m : nmsg) (ps : list npkt) : list npkt := filter (fun p => Nat.eqb (np_id p) (n_id m)) ps.

(* The packets a message of some length is made of: packets of the MTU except the last
   one, which is marked; at least one packet. *)
Definition pieces (mtu len : Z) : nat := Z.to_nat (Z.max 1 ((len + mtu - 1) / mtu)).
Definition cut (mtu : Z) (m : nmsg) : list (Z * Z * bool) :=
  map (fun k => (Z.of_nat k * mtu, Z.min mtu (n_len m - Z.of_nat k * mtu), Nat.eqb (S k) (pieces mtu (n_len m))))
      (seq 0 (pieces mtu (n_len m))).

Definition prefix {A} (x y : list A) : Prop := exists z, x ++ z = y.
Definition bytes (ps : list npkt) : Z := fold_right (fun p s => np_len p + s) 0 ps.

(* The messages that have not been injected completely *)
Definition unfinished (h : list nobs) : list nmsg :=
  filter (fun m => negb (existsb np_tail (of_msg m (injected h)))) (sent h).
(* At no time have there been more than k of them. *)
Definition at_most (k : nat) (h : list nobs) : Prop :=
  forall newer older, h = newer ++ older -> (length (unfinished older) <= k)%nat.
(* Messages have different flow ids. *)
Definition distinct (h : list nobs) : Prop := NoDup (map n_id (sent h)).

(* Flow id and shape: what the receiver can tell packets apart by *)
Definition tag (p : npkt) : nat * (Z * Z * bool) := (np_id p, shape p).
Definition tagged (mtu : Z) (m : nmsg) : list (nat * (Z * Z * bool)) := map (fun x => (n_id m, x)) (cut mtu m).

(* The account of what the NIC has done, with [buf] bytes left in its buffer; [idle] says
   that no call is being carried out. *)
Record accounted (c : ncfg) (buf0 : Z) (h : list nobs) (buf : Z) (idle : bool) : Prop := {
  (* each message is cut into its pieces, in order, each of them at most once *)
  a_cut : forall m, In m (sent h) -> prefix (map shape (of_msg m (injected h))) (cut (c_mtu c) m);
  (* nothing else is injected *)
  a_known : forall p, In p (injected h) -> exists m, In m (sent h) /\ n_id m = np_id p;
  (* the buffer is what is not on the way *)
  a_buf : buf = buf0 + credits h - (if c_flow c then bytes (injected h) else 0);
  a_room : 0 <= buf;
  (* the NIC rests only if all is injected, or if the next piece of some message does not fit *)
  a_idle : idle = true ->
    (forall m, In m (sent h) -> map shape (of_msg m (injected h)) = cut (c_mtu c) m) \/
    exists m k off len tail, In m (sent h) /\ map shape (of_msg m (injected h)) = firstn k (cut (c_mtu c) m) /\
      nth_error (cut (c_mtu c) m) k = Some (off, len, tail) /\ buf < len }.

(* Everything given to the NIC has been injected. *)
Definition all_injected (c : ncfg) (h : list nobs) : Prop :=
  forall m, In m (sent h) -> map shape (of_msg m (injected h)) = cut (c_mtu c) m.
