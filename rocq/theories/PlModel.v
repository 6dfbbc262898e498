(** Model of the pooled allocator for one class T, sprockit/sprockit/thread_safe_new.h
    (SSTMAC_CUSTOM_NEW on, sanity checks off). Addresses are nat. *)
From Coq Require Import List Arith Bool.
Import ListNotations.

(** [avail t]: available[t], last element first. [slabs]: every block got from new[],
    as (address, length). [live]: the chunks handed out and not yet freed (not in the
    code: what the program holds). *)
Record pool := Pool { avail : nat -> list nat; slabs : list (nat * nat); live : list nat }.

Definition increment : nat := 512.
Definition line : nat := 64.

(** grow, thread_safe_new.h:160-164. *)
Definition unit_size (sizeofT : nat) : nat :=
  if sizeofT mod line =? 0 then sizeofT else sizeofT + (line - sizeofT mod line).

(** grow, thread_safe_new.h:167-173: the first chunk and the number of chunks. *)
Definition first_chunk (base : nat) : nat := if base mod line =? 0 then base else base + (line - base mod line).
Definition num_chunks (base : nat) : nat := if base mod line =? 0 then increment else increment - 1.

(** grow, thread_safe_new.h:174-179, in order of push_back. *)
Definition chunks (sizeofT base : nat) : list nat :=
  map (fun i => first_chunk base + i * unit_size sizeofT) (seq 0 (num_chunks base)).

Definition upd_avail (f : nat -> list nat) (t : nat) (l : list nat) : nat -> list nat :=
  fun u => if u =? t then l else f u.

(** grow, thread_safe_new.h:159-181; [base] is the address returned by new[]. *)
Definition grow (sizeofT t base : nat) (p : pool) : pool :=
  Pool (upd_avail (avail p) t (rev (chunks sizeofT base) ++ avail p t))
       ((base, unit_size sizeofT * increment) :: slabs p) (live p).

(** allocate, thread_safe_new.h:110-124, and the address returned. *)
Definition pop (t : nat) (p : pool) : option (nat * pool) :=
  match avail p t with
  | [] => None
  | c :: r => Some (c, Pool (upd_avail (avail p) t r) (slabs p) (c :: live p))
  end.

Definition allocate (sizeofT t base : nat) (p : pool) : option (nat * pool) :=
  pop t (match avail p t with [] => grow sizeofT t base p | _ => p end).

Fixpoint remove1 (c : nat) (l : list nat) : list nat :=
  match l with [] => [] | x :: r => if x =? c then r else x :: remove1 c r end.

(** operator delete, thread_safe_new.h:139-156, by thread [t]. *)
Definition release (t c : nat) (p : pool) : pool :=
  Pool (upd_avail (avail p) t (c :: avail p t)) (slabs p) (remove1 c (live p)).

(** The operations of a program: a thread allocates (should the pool have to grow, new[]
    returns [base], any address whose block is disjoint from the earlier ones), or frees
    a chunk that it or another thread holds. *)
Inductive op := New (t base : nat) | Delete (t c : nat).

Definition apart (a la b lb : nat) : Prop := a + la <= b \/ b + lb <= a.

Inductive pstep (sizeofT : nat) : pool -> op -> pool -> Prop :=
| s_new t base p c p' :
    (forall s, In s (slabs p) -> apart base (unit_size sizeofT * increment) (fst s) (snd s)) ->
    allocate sizeofT t base p = Some (c, p') -> pstep sizeofT p (New t base) p'
| s_delete t c p : In c (live p) -> pstep sizeofT p (Delete t c) (release t c p).

Inductive reach (sizeofT : nat) : pool -> Prop :=
| r_init : reach sizeofT (Pool (fun _ => []) [] [])
| r_step p o p' : reach sizeofT p -> pstep sizeofT p o p' -> reach sizeofT p'.
