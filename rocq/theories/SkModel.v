(** The stacks of simulated threads: sstmac/software/threading/stack_alloc.cc, stack_alloc_chunk.cc and the
    lookup of a thread's data from an address on its stack (tls.h:75-79, global.h:123-130).
    Simplified: addresses and sizes are unbounded (size_t, and int for sstmac_global_stacksize in the code);
    the locks of alloc and free are not modelled (one caller at a time); memory of chunks is never unmapped
    (chunk_set::clear does not delete, stack_alloc.cc:81-91). *)
From Coq Require Import List NArith Bool.
Import ListNotations.
Open Scope N_scope.

(** StackAlloc::init, stack_alloc.cc:61-79: the stack size is rounded up to pages, the chunk size is eight
    stacks unless the user gives one. *)
Record conf := mkconf { ss : N; chunk_size : N; protect : bool }.
Definition init (stack_size : N) (stack_chunk_size : option N) (protect_stacks : bool) : conf :=
  let rem := stack_size mod 4096 in
  let s := if rem =? 0 then stack_size else stack_size + (4096 - rem) in
  mkconf s (match stack_chunk_size with Some c => c | None => 8 * s end) protect_stacks.

(** StackAlloc::chunk::chunk, stack_alloc_chunk.cc:61-97, with the address [a] that mmap returned: the size of
    the mapping, the step, the first offset and the protected regions (begin; each is one stack long). *)
Definition size (c : conf) : N := if protect c then 2 * chunk_size c else chunk_size c.
Definition step (c : conf) : N := if protect c then 2 * ss c else ss c.
Definition align (c : conf) (a : N) : N :=
  let m := a mod ss c in if m =? 0 then 0 else ss c - m.
Definition first (c : conf) (a : N) : N := if protect c then align c a + ss c else align c a.
(** The loop of stack_alloc_chunk.cc:91-95 and the calls of getNextStack (stack_alloc_chunk.cc:99-108) until it
    returns null are the same loop: the addresses from an offset on while a whole step fits; [None]: not
    ended after [fuel] rounds. *)
Fixpoint walk (fuel : nat) (c : conf) (a off : N) : option (list N) :=
  match fuel with
  | O => None
  | S f => if off + step c <? size c
           then match walk f c a (off + step c) with Some l => Some (a + off :: l) | None => None end
           else Some []
  end.
Definition guards (fuel : nat) (c : conf) (a : N) : option (list N) :=
  if protect c then walk fuel c a (align c a) else Some [].
Definition stacks (fuel : nat) (c : conf) (a : N) : option (list N) := walk fuel c a (first c a).

(** The state of StackAlloc: the chunks (address of the mapping), the available stacks, the last first, and
    the protected regions of memory; [live]: the stacks that callers hold. *)
Record st := mkst { chunks : list N; avail : list N; prot : list N; live : list N }.
Definition st0 : st := mkst [] [] [] [].

Inductive res := Ok (s : st) (r : N) | Undefined | Forever.
(** StackAlloc::alloc, stack_alloc.cc:96-119; [a]: what mmap returns if it is called; [Undefined]:
    available.back() on an empty vector. *)
Definition alloc (fuel : nat) (c : conf) (a : N) (s : st) : res :=
  let take s := match avail s with
                | [] => Undefined
                | b :: l => Ok (mkst (chunks s) l (prot s) (b :: live s)) b
                end in
  match avail s with
  | [] => match stacks fuel c a, guards fuel c a with
          | Some l, Some g => take (mkst (chunks s ++ [a]) (rev l) (g ++ prot s) (live s))
          | _, _ => Forever
          end
  | _ => take s
  end.
(** StackAlloc::free, stack_alloc.cc:124-130. *)
Fixpoint drop (b : N) (l : list N) : list N :=
  match l with [] => [] | x :: t => if b =? x then t else x :: drop b t end.
Definition free (b : N) (s : st) : st := mkst (chunks s) (b :: avail s) (prot s) (drop b (live s)).

(** get_sstmac_tls (tls.h:75-79), get_special_at_offset (global.h:123-130): where a thread looks for its own
    data, from the address of a local variable. *)
Definition own_data (c : conf) (local : N) : N := (local / ss c) * ss c.
(** The check of ThreadInfo::registerUserSpaceVirtualThread, thread_info.cc:116-121. *)
Definition aligned (c : conf) (b : N) : bool := b mod ss c =? 0.

(** What mmap promises: page-aligned memory that is not in use. *)
Definition fresh (c : conf) (maps : list N) (a : N) : Prop :=
  a mod 4096 = 0 /\ forall b, In b maps -> a + size c <= b \/ b + size c <= a.
(** A caller takes a stack or gives back one it holds. *)
Inductive op := Alloc (a : N) | Free (b : N).
Inductive run (fuel : nat) (c : conf) : list op -> st -> Prop :=
| run_nil : run fuel c [] st0
| run_alloc l s a s' r : run fuel c l s -> (avail s = [] -> fresh c (chunks s) a) -> alloc fuel c a s = Ok s' r -> run fuel c (l ++ [Alloc a]) s'
| run_free l s b : run fuel c l s -> In b (live s) -> run fuel c (l ++ [Free b]) (free b s).
