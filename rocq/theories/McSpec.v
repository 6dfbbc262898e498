(** What MPI says about the memory after a collective. *)
From Coq Require Import List Arith ZArith Bool.
From Verif Require Import DtModel DtSpec McModel.
Import ListNotations.
Local Open Scope Z_scope.

Section Spec.
Context {A : Type}.

(** Byte [i] of the [n] elements of type [d] at address [a], and the number of bytes. *)
Definition data (d : dt) (n : nat) (m : mem A) (a : Z) (i : nat) : A := m (a + nth i (tmapn d n) 0).
Definition nbytes (d : dt) (n : nat) : nat := length (tmapn d n).

(** Nothing but those bytes differs. *)
Definition untouched (d : dt) (n : nat) (m m' : mem A) (a : Z) : Prop :=
  forall x, ~ In (x - a) (tmapn d n) -> m' x = m x.

(** What rank [j] puts in: its send buffer or, in place, its own block of the receive
    buffer. *)
Definition contributed (dflt : A) (c : nat -> call) (ms : nat -> mem A) (j i : nat) : A :=
  match c_send (c j), c_st (c j), c_recv (c j), c_rt (c j) with
  | PAt a, Some d, _, _ => data d (c_scnt (c j)) (ms j) a i
  | PInPlace, _, PAt a, Some d =>
    data d (c_rcnt (c j)) (ms j) (a + Z.of_nat j * (Z.of_nat (c_rcnt (c j)) * dext d)) i
  | _, _, _, _ => dflt
  end.

(** [m'] has [n] blocks of [ne] bytes, block [j] being [f j], in [n * cnt] elements of
    type [d] at [a], and is [m] elsewhere. *)
Definition holds_blocks (n ne : nat) (d : dt) (cnt : nat) (a : Z) (f : nat -> nat -> A) (m m' : mem A) : Prop :=
  (forall j i, (j < n)%nat -> (i < ne)%nat -> data d (n * cnt) m' a (j * ne + i) = f j i) /\
  untouched d (n * cnt) m m' a.
End Spec.
