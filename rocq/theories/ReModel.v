(** Recursive-halving reduce: class WilkeReduceActor, sumi/reduce.cc:52-310. *)
From Coq Require Import List Arith Lia Bool.
From Verif Require Import RdModel ShModel ArModel.
Import ListNotations.

Section Re.
Context {T : Type}.
Variable op : T -> T -> T.
Variables (n ne root : nat).

(** num_halving_rounds, reduce.cc:208-212. *)
Definition re_halving : nat := if root =? 0 then log2_of n else log2_of n - 1.

(** Whether role [v] still takes part in round [r]: max_active_rank,
    reduce.cc:214-217, 250. *)
Definition re_active (r v : nat) : bool :=
  if r <? log2_of n then true else v <? pow2_of n / 2 ^ (r - log2_of n).

(** The partner of role [v] in round [r].  The reducing loop (reduce.cc:137-206)
    and the mirrored loop (215-251) have the text of the loops of
    sumi/allreduce.cc:136-192, 194-223, modelled by [wilke_act]; exchanges
    between roles of one rank are left out (171, 228). *)
Definition re_partner (r v : nat) : option nat :=
  if re_active r v then
    match wilke_act (log2_of n) ne v r with
    | Some (_, a) => if shared_role n (pow2_of n) v (w_vp a) then None else Some (w_vp a)
    | None => None
    end
  else None.

(** The rounds of all roles; [src]: the initialised result buffers.
    SIMPLIFIED: contiguous data types only (reduce.cc:117-126). *)
Definition re_sched (src : nat -> nat -> T) : sched (nat -> T) (list T) := {|
  sc_np := pow2_of n;
  sc_nr := log2_of n + re_halving;
  sc_to := re_partner;
  sc_from := re_partner;
  sc_pre := fun _ _ b => b;
  sc_out := fun r v b => match wilke_act (log2_of n) ne v r with
                         | Some (_, a) => bread b (w_so a) (w_sn a) | None => [] end;
  sc_in := fun r v b m => match wilke_act (log2_of n) ne v r with
                          | Some (true, a) => breduce op b (w_ro a) (firstn (w_rn a) m)
                          | Some (false, a) => bwrite b (w_ro a) (firstn (w_rn a) m)
                          | None => b end;
  sc_post := fun _ _ b => b;
  sc_init := fun v => src (virtual_to_real n (pow2_of n) v) |}.

(** initBuffers, reduce.cc:78-97: the contribution is copied into the result
    buffer at the root and into a workspace ([dst]) elsewhere. *)
Definition re_init (dst src : nat -> T) : nat -> T := bwrite dst 0 (bread src 0 ne).

(** The two last messages, to a root other than 0 (reduce.cc:257-288): message
    [c] goes from rank [c] to the root and carries [re_len c] elements from
    [re_off c]. *)
Definition re_split : nat := ne / 2 + ne mod 2.
Definition re_last (c : nat) : bool :=
  negb (root =? 0) && ((c =? 0) || ((c =? 1) && negb (root =? 1))).
Definition re_off (c : nat) : nat := if c =? 0 then 0 else re_split.
Definition re_len (c : nat) : nat := if c =? 0 then re_split else ne - re_split.

Inductive fstat := FWait | FFly (m : list T) | FDone.

Record xcfg := { x_h : shcfg T (list T); x_ch : nat -> fstat }.

Definition fset (f : nat -> fstat) (c : nat) (v : fstat) : nat -> fstat := fun x => if x =? c then v else f x.

(** All roles of rank [p] have ended, so its final_join has fired
    (reduce.cc:128, 253-254). *)
Definition re_joined (h : shcfg T (list T)) (p : nat) : Prop :=
  forall v, In v (real_to_virtual n (pow2_of n) p) -> l_rnd (h_ctl h v) = log2_of n + re_halving.

Inductive xstep (src : nat -> nat -> T) : xcfg -> xcfg -> Prop :=
| x_role : forall x h', hstep (re_sched src) (virtual_to_real n (pow2_of n)) (x_h x) h' ->
    xstep src x {| x_h := h'; x_ch := x_ch x |}
| x_send : forall x c, re_last c = true -> re_joined (x_h x) c -> x_ch x c = FWait ->
    xstep src x {| x_h := x_h x; x_ch := fset (x_ch x) c (FFly (bread (h_mem (x_h x) c) (re_off c) (re_len c))) |}
| x_recv : forall x c m, re_last c = true -> re_joined (x_h x) root -> x_ch x c = FFly m ->
    xstep src x {| x_h := {| h_ctl := h_ctl (x_h x);
                             h_mem := hset (h_mem (x_h x)) root
                                        (bwrite (h_mem (x_h x) root) (re_off c) (firstn (re_len c) m));
                             h_net := h_net (x_h x) |};
                   x_ch := fset (x_ch x) c FDone |}.

Inductive xexec (src : nat -> nat -> T) : nat -> xcfg -> Prop :=
| xx0 : xexec src 0 {| x_h := hinit src; x_ch := fun _ => FWait |}
| xxS : forall k x x', xexec src k x -> xstep src x x' -> xexec src (S k) x'.

(** The collective is over at rank [p]. *)
Definition re_done (x : xcfg) (p : nat) : Prop :=
  re_joined (x_h x) p /\
  (forall c, re_last c = true -> p = c -> x_ch x c <> FWait) /\
  (forall c, re_last c = true -> p = root -> x_ch x c = FDone).
End Re.
Arguments fstat : clear implicits. Arguments xcfg : clear implicits.
