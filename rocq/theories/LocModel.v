(* Reduction operators of the MPI layer.
   /repo/sumi/comm_functions.h:55-182, /repo/sumi-mpi/mpi_api_type.cc:86-119,
   /repo/sumi-mpi/mpi_types/mpi_type.h:162-199,
   /repo/sumi-mpi/mpi_types/mpi_type.cc:172-181 *)
From Coq Require Import ZArith List Bool.
Import ListNotations.
Open Scope Z_scope.

(* struct int_int_t and its siblings, mpi_api_type.cc:61-89.  The value is an
   integer here; the float types behave the same as long as no NaN occurs. *)
Record pair : Type := { p_value : Z; p_index : Z }.

(* MaxLocPair<data_t>::op, mpi_api_type.cc:91-104 *)
Definition maxloc_op (dst src : pair) : pair :=
  if p_value src >? p_value dst
  then {| p_value := p_value src; p_index := p_index src |}
  else if p_value src =? p_value dst
  then {| p_value := p_value dst; p_index := Z.min (p_index src) (p_index dst) |}
  else dst.

(* MinLocPair<data_t>::op, mpi_api_type.cc:106-119 *)
Definition minloc_op (dst src : pair) : pair :=
  if p_value src <? p_value dst
  then {| p_value := p_value src; p_index := p_index src |}
  else if p_value src =? p_value dst
  then {| p_value := p_value dst; p_index := Z.min (p_index src) (p_index dst) |}
  else dst.

(* Two's complement value of the low w bits: storing an arithmetic result in a
   w bit integer variable. *)
Definition wrap (w : Z) (x : Z) : Z :=
  (x + 2 ^ (w - 1)) mod 2 ^ w - 2 ^ (w - 1).

(* bool(x) of an integer, and the integer a bool converts to. *)
Definition truth (x : Z) : bool := negb (x =? 0).
Definition of_bool (b : bool) : Z := if b then 1 else 0.

(* Add::op, comm_functions.h:55-62; signed overflow taken as two's complement *)
Definition add_op (w : Z) (dst src : Z) : Z := wrap w (dst + src).
(* Prod::op, comm_functions.h:64-71 *)
Definition prod_op (w : Z) (dst src : Z) : Z := wrap w (dst * src).
(* Min::op, comm_functions.h:84-92 *)
Definition min_op (dst src : Z) : Z := if dst <? src then dst else src.
(* Max::op, comm_functions.h:144-152 *)
Definition max_op (dst src : Z) : Z := if dst <? src then src else dst.
(* LXOr::op, comm_functions.h:94-102 *)
Definition lxor_op (dst src : Z) : Z := of_bool (xorb (truth dst) (truth src)).
(* Or::op, comm_functions.h:134-142 *)
Definition lor_op (dst src : Z) : Z := of_bool (truth dst || truth src).
(* And::op, comm_functions.h:161-169 *)
Definition land_op (dst src : Z) : Z := of_bool (truth dst && truth src).
(* BAnd::op, comm_functions.h:114-122 *)
Definition band_op (dst src : Z) : Z := Z.land dst src.
(* BOr::op, comm_functions.h:124-132 *)
Definition bor_op (dst src : Z) : Z := Z.lor dst src.
(* BXOr::op, comm_functions.h:104-112 *)
Definition bxor_op (dst src : Z) : Z := Z.lxor dst src.

(* ReduceOp<Fxn,data_t>::op, comm_functions.h:171-182: the loop over nelems
   elements.  Buffers are lists; nelems elements of both must exist. *)
Fixpoint reduce_op {A : Type} (op : A -> A -> A) (nelems : nat) (dst src : list A)
  : list A :=
  match nelems, dst, src with
  | S k, d :: ds, s :: ss => op d s :: reduce_op op k ds ss
  | _, _, _ => dst
  end.

(* The predefined operator handles an integer type may be asked for. *)
Inductive mop : Type :=
  SUM | MAX | MIN | LAND | LOR | PROD | LXOR | BAND | BOR | BXOR.

(* init_integer<data_t>, mpi_type.h:161-166, with init_ops (182-191) and
   init_bitwise_ops (193-198): the entries of fxns_.  MPI_BOR is stored twice and
   MPI_BXOR never is.  MpiType::op (mpi_type.cc:172-181) throws for a missing
   entry, which is None here.  The bool types are left out. *)
Definition int_fxns (w : Z) (o : mop) : option (Z -> Z -> Z) :=
  match o with
  | SUM => Some (add_op w)
  | MAX => Some max_op
  | MIN => Some min_op
  | LAND => Some land_op
  | LOR => Some lor_op
  | PROD => Some (prod_op w)
  | LXOR => Some lxor_op
  | BAND => Some band_op
  | BOR => Some bor_op
  | BXOR => None
  end.

(* A reduction tree: what a collective computes, whatever order the messages
   meet in.  Node a b is: buffer a is the destination, b the source. *)
Inductive tree (A : Type) : Type :=
| Leaf : A -> tree A
| Node : tree A -> tree A -> tree A.
Arguments Leaf {A} _.
Arguments Node {A} _ _.

Fixpoint leaves {A} (t : tree A) : list A :=
  match t with Leaf x => [x] | Node a b => leaves a ++ leaves b end.

Fixpoint eval {A} (op : A -> A -> A) (t : tree A) : A :=
  match t with Leaf x => x | Node a b => op (eval op a) (eval op b) end.
