(** Global variables of simulated processes: sstmac/software/process/global.{h,cc}, get_data_segment of app.cc and
    the registration of threads in thread_info.cc. One GlobalVariableContext: that of the globals (one segment
    per process) or that of thread-local variables (one per thread); "process" below is a process or a thread.
    Simplified: int does not overflow; an initialisation function writes a fixed value of at most the size of
    its variable; App::App and the start of its thread are one step (no library is loaded in between);
    one physical thread. A byte that was never written is [None]. *)
From Coq Require Import List Arith Bool.
Import ListNotations.

Definition mem := list (option nat).
(** memcpy into a buffer; [None]: behind its end. *)
Definition write_at (o : nat) (v : mem) (b : mem) : option mem :=
  if o + length v <=? length b then Some (firstn o b ++ v ++ skipn (o + length v) b) else None.

(** GlobalVariableContext, global.h:58-112. [vars]: what append returned, with the size, for each variable;
    [segs]: the segments that exist (App::globals_storage_, Thread::tls_storage_). *)
Record ctx := mkctx {
  off : nat;                          (* stackOffset *)
  alloc : nat;                        (* allocSize_ *)
  buf : option mem;                   (* globalInits *)
  fns : list (nat * mem);             (* initFxns, by offset *)
  active : list nat;                  (* activeGlobalMaps_ *)
  vars : list (nat * nat);
  segs : list (nat * mem) }.
(** GlobalVariableContext::init, global.cc:82-88; [a] is 4096 in the code. *)
Definition ctx0 (a : nat) : ctx := mkctx 0 a None [] [] [] [].

Inductive res := Ok (c : ctx) | Abort | Bad | Forever.

(** global.cc:101-108: aligned on 32 bits; allocSize_ grows until it is big enough. *)
Definition round4 (n : nat) : nat := let r := n mod 4 in if r =? 0 then n else n + (4 - r).
Fixpoint grow (fuel need a : nat) : option nat :=
  if a <? need then match fuel with O => None | S f => grow f need (a * 2) end else Some a.
Fixpoint put (o : nat) (v : mem) (l : list (nat * mem)) : list (nat * mem) :=
  match l with
  | [] => [(o, v)]
  | (o', v') :: t => if o <? o' then (o, v) :: l else if o' <? o then (o', v') :: put o v t else (o, v) :: t
  end.
(** CppGlobalRegisterGuard (global.cc:135-145) with GlobalVariableContext::append (global.cc:96-133) and
    registerInitFxn (global.cc:90-94); without [v] only append, as sw::global<T>::global() does. *)
Definition declare (n : nat) (v : option mem) (c : ctx) : res :=
  let inc := round4 n in
  match grow (S (inc + off c)) (inc + off c) (alloc c) with
  | None => Forever
  | Some a =>
      let realloc := alloc c <? inc + off c in
      if realloc && negb (length (active c) =? 0) then Abort
      else
        let f := match v with Some w => put (off c) w (fns c) | None => fns c end in
        let fin b := Ok (mkctx (off c + inc) a b f (active c) (vars c ++ [(off c, n)]) (segs c)) in
        match buf c with
        | None => fin (Some (repeat None a))
        | Some b => if realloc
                    then if length b <? off c then Bad
                         else fin (Some (firstn (off c) b ++ repeat None (a - off c)))
                    else fin (Some b)
        end
  end.
(** ~CppGlobalRegisterGuard, global.cc:147-154; unregisterInitFxn, global.h:94-96. *)
Definition undeclare (x : nat) (c : ctx) : res :=
  let o := fst (nth x (vars c) (0, 0)) in
  Ok (mkctx (off c) (alloc c) (buf c) (filter (fun y => negb (fst y =? o)) (fns c)) (active c) (vars c) (segs c)).
(** callInitFxns, global.cc:156-164. *)
Fixpoint call (l : list (nat * mem)) (s : mem) : option mem :=
  match l with
  | [] => Some s
  | (o, v) :: t => match write_at o v s with Some s' => call t s' | None => None end
  end.
(** App::App (app.cc:238): get_data_segment (app.cc:126-143; [g]: the parameter globals_size or tls_size), then
    ThreadInfo::registerUserSpaceVirtualThread (thread_info.cc:141-157). *)
Definition start (p : nat) (g : option nat) (c : ctx) : res :=
  let a := match g with Some n => n | None => alloc c end in
  let b := match buf c with Some b => b | None => [] end in
  if a =? 0 then Ok (mkctx (off c) a (buf c) (fns c) (active c) (vars c) (segs c))
  else if length b <? off c then Bad
  else match write_at 0 (firstn (off c) b) (repeat None a) with
       | None => Bad
       | Some s => match call (fns c) s with
                   | None => Bad
                   | Some s' => Ok (mkctx (off c) a (buf c) (fns c) (p :: active c) (vars c) ((p, s') :: segs c))
                   end
       end.
Fixpoint seg (p : nat) (l : list (nat * mem)) : option mem :=
  match l with [] => None | (q, s) :: t => if p =? q then Some s else seg p t end.
Fixpoint set_seg (p : nat) (s : mem) (l : list (nat * mem)) : list (nat * mem) :=
  match l with [] => [] | (q, s') :: t => if p =? q then (q, s) :: t else (q, s') :: set_seg p s t end.
(** get_global_at_offset (global.h:123-134): the process accesses a byte of a variable. *)
Definition store (p x i : nat) (w : nat) (c : ctx) : res :=
  match seg p (segs c) with
  | None => Bad
  | Some s => match write_at (fst (nth x (vars c) (0, 0)) + i) [Some w] s with
              | None => Bad
              | Some s' => Ok (mkctx (off c) (alloc c) (buf c) (fns c) (active c) (vars c) (set_seg p s' (segs c)))
              end
  end.
Definition read (c : ctx) (p x i : nat) : option nat :=
  match seg p (segs c) with
  | None => None
  | Some s => nth (fst (nth x (vars c) (0, 0)) + i) s None
  end.
(** sstmac_init_global_space, global.cc:174-185, 197-201. *)
Fixpoint into_all (ps : list nat) (o : nat) (v : mem) (l : list (nat * mem)) : option (list (nat * mem)) :=
  match ps with
  | [] => Some l
  | p :: t => match seg p l with
              | None => None
              | Some s => match write_at o v s with None => None | Some s' => into_all t o v (set_seg p s' l) end
              end
  end.
Definition init_space (x : nat) (v : mem) (c : ctx) : res :=
  let o := fst (nth x (vars c) (0, 0)) in
  match into_all (active c) o v (segs c), buf c with
  | Some l, Some b => match write_at o v b with
                      | Some b' => Ok (mkctx (off c) (alloc c) (Some b') (fns c) (active c) (vars c) l)
                      | None => Bad
                      end
  | _, _ => Bad
  end.
Definition without (p : nat) (l : list (nat * mem)) : list (nat * mem) := filter (fun y => negb (fst y =? p)) l.
(** The end of App::run (app.cc:562): deregisterUserSpaceVirtualThread (thread_info.cc:160-176); then ~App
    (app.cc:361) or ~Thread (thread.cc:315) frees the segment. *)
Definition finish (p : nat) (c : ctx) : res :=
  Ok (mkctx (off c) (alloc c) (buf c) (fns c) (filter (fun q => negb (q =? p)) (active c)) (vars c) (without p (segs c))).
(** The end of a thread that is not the main thread, or that leaves App::run by an exception: only
    ~Thread (thread.cc:307-317). *)
Definition vanish (p : nat) (c : ctx) : res :=
  Ok (mkctx (off c) (alloc c) (buf c) (fns c) (active c) (vars c) (without p (segs c))).

Inductive op :=
| Declare (n : nat) (v : option mem)
| Undeclare (x : nat)
| Start (p : nat) (g : option nat)
| Store (p x i w : nat)
| InitSpace (x : nat) (v : mem)
| Finish (p : nat)
| Vanish (p : nat).
Definition step (o : op) (c : ctx) : res :=
  match o with
  | Declare n v => declare n v c
  | Undeclare x => undeclare x c
  | Start p g => start p g c
  | Store p x i w => store p x i w c
  | InitSpace x v => init_space x v c
  | Finish p => finish p c
  | Vanish p => vanish p c
  end.
Fixpoint run (l : list op) (c : ctx) : res :=
  match l with [] => Ok c | o :: t => match step o c with Ok c' => run t c' | r => r end end.
