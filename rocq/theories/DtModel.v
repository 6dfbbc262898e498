(** MPI derived datatypes: sumi-mpi/mpi_types/mpi_type.{h,cc} and the constructors in
    sumi-mpi/mpi_api_type.cc. SIMPLIFIED: ints are unbounded; block lengths and counts
    are not negative; pair types (never built through the API) are left out. *)
From Coq Require Import List ZArith Bool.
Import ListNotations.
Local Open Scope Z_scope.

Definition zseq (n : nat) : list Z := map Z.of_nat (seq 0 n).

(* MpiType with its vecdata / inddata, mpi_type.h:81-83, 294-321. An ind_block is
   (base, byte_disp, num). *)
Inductive mtype :=
| Prim (size : nat)
| Vec (base : mtype) (count block : nat) (byte_stride : Z)
| Ind (blocks : list (mtype * Z * nat)) (size : nat) (extent : Z).

(* size_: mpi_type.cc:139, 202, 218 *)
Fixpoint msize (t : mtype) : nat :=
  match t with
  | Prim n => n
  | Vec b c k _ => c * k * msize b
  | Ind _ s _ => s
  end.

(* extent_: mpi_type.cc:138, 201, 219 *)
Definition mext (t : mtype) : Z :=
  match t with
  | Prim n => Z.of_nat n
  | Vec _ _ _ s => s
  | Ind _ _ e => e
  end.

(* contiguous_: mpi_type.cc:61, 203-208, 221 *)
Fixpoint mcontig (t : mtype) : bool :=
  match t with
  | Prim _ => true
  | Vec b _ k s => (s =? Z.of_nat k * mext b) && mcontig b
  | Ind _ s e => e =? Z.of_nat s
  end.

(* One byte copied between the packed and the unpacked buffer: (offset in the packed
   buffer, offset in the unpacked buffer). A memcpy of [n] bytes: *)
Definition run (n : nat) (po uo : Z) : list (Z * Z) :=
  map (fun k => (po + k, uo + k)) (zseq n).

(* pack_action, mpi_type.cc:416-441, as the list of bytes copied in order, with the
   cases pack_action_primitive 319-331, pack_action_vector 333-345 and
   pack_action_indexed 347-367; the calls of packSend / unpack_recv (lines 361-362)
   are the loop of lines 369-391. *)
Fixpoint moves (t : mtype) (po uo : Z) {struct t} : list (Z * Z) :=
  match t with
  | Prim n => run n po uo
  | Vec b c _ s =>
    flat_map (fun j => moves b (po + j * Z.of_nat (msize b)) (uo + s * j)) (zseq c)
  | Ind bl _ _ =>
    (fix go (l : list (mtype * Z * nat)) (po uo : Z) {struct l} : list (Z * Z) :=
       match l with
       | [] => []
       | (b, _, n) :: r =>
         (if mcontig b then run (msize b * n) po uo
          else flat_map (fun i => moves b (po + i * Z.of_nat (msize b)) (uo + i * mext b)) (zseq n))
         ++ go r (po + Z.of_nat (msize b * n)) (uo + mext b * Z.of_nat n)
       end) bl po uo
  end.

(* packSend and unpack_recv, mpi_type.cc:369-391 *)
Definition packn (t : mtype) (n : nat) : list (Z * Z) :=
  flat_map (fun i => moves t (i * Z.of_nat (msize t)) (i * mext t)) (zseq n).

(* MpiProtocol::fillSendBuffer, mpi_protocol.cc:58-69; the receiving side,
   mpi_queue_recv_request.cc:76-80 and mpi_queue.cc:252-259: a contiguous type is
   received in place, otherwise into a packed buffer which is then unpacked. [n]: the
   count of the send, also used by the receiver (mpi_queue.cc:256). *)
Definition bytes_moved (t : mtype) (n : nat) : list (Z * Z) :=
  if mcontig t then run (n * msize t) 0 0 else packn t n.

(* ---- memories ---- *)

Definition mem (A : Type) := Z -> A.
Definition mset {A} (m : mem A) (a : Z) (v : A) : mem A :=
  fun x => if x =? a then v else m x.

Definition pack_with {A} (mv : list (Z * Z)) (unpacked packed : mem A) : mem A :=
  fold_left (fun p m => mset p (fst m) (unpacked (snd m))) mv packed.
Definition unpack_with {A} (mv : list (Z * Z)) (packed unpacked : mem A) : mem A :=
  fold_left (fun u m => mset u (snd m) (packed (fst m))) mv unpacked.

(* A send of [n] elements of type [t1] received with type [t2]; [junk] is what is in
   the new packed buffers. *)
Definition transfer {A} (t1 t2 : mtype) (n : nat) (junk src dst : mem A) : mem A :=
  unpack_with (bytes_moved t2 n) (pack_with (bytes_moved t1 n) src junk) dst.

(* ---- the API ---- *)

(* Types as the program asks for them. *)
Inductive dt :=
| DPrim (size : nat)
| DContig (count : nat) (old : dt)
| DVec (count block : nat) (stride : Z) (old : dt)
| DHvec (count block : nat) (stride : Z) (old : dt)
| DIndexed (l : list (nat * Z)) (old : dt)      (* (length, displacement) *)
| DHindexed (l : list (nat * Z)) (old : dt)
| DStruct (l : list (nat * Z * dt)).            (* (length, displacement, type) *)

(* doTypeHindexed, mpi_api_type.cc:369-413: byte_disp is the sum of the earlier
   displacements (lines 393, 396) *)
Fixpoint hidx_blocks (t : mtype) (extent : Z) (l : list (nat * Z)) : list (mtype * Z * nat) :=
  match l with
  | [] => []
  | (n, d) :: r =>
    match n with
    | O => hidx_blocks t extent r
    | S _ => (t, extent, n) :: hidx_blocks t (extent + d) r
    end
  end.
Fixpoint hidx_size (t : mtype) (l : list (nat * Z)) : nat :=
  match l with
  | [] => 0
  | (n, _) :: r => n * msize t + hidx_size t r
  end.
Fixpoint hidx_extent (l : list (nat * Z)) : Z :=
  match l with
  | [] => 0
  | (n, d) :: r => (match n with O => 0 | S _ => d end) + hidx_extent r
  end.
Definition hindexed (t : mtype) (l : list (nat * Z)) : mtype :=
  Ind (hidx_blocks t 0 l) (hidx_size t l) (hidx_extent l).

(* typeCreateStruct, mpi_api_type.cc:541-594; the extent is the end of the last block
   that is not empty (line 571) *)
Definition struct_blocks (l : list (nat * Z * mtype)) : list (mtype * Z * nat) :=
  map (fun e => (snd e, snd (fst e), fst (fst e)))
      (filter (fun e => negb (Nat.eqb (fst (fst e)) 0)) l).
Definition struct_size (l : list (nat * Z * mtype)) : nat :=
  fold_right (fun e s => (msize (snd e) * fst (fst e) + s)%nat) O l.
Definition struct_extent (l : list (nat * Z * mtype)) : Z :=
  fold_left (fun x e => if Nat.eqb (fst (fst e)) 0 then x
                        else snd (fst e) + Z.of_nat (msize (snd e) * fst (fst e))) l 0.

(* the MpiType built for a requested type: typeContiguous 501-524, typeVector 354-367,
   typeHvector 339-351 with doTypeHvector 316-337, typeIndexed 429-447, typeHindexed
   415-427, typeCreateStruct 541-594 *)
Fixpoint build (d : dt) : mtype :=
  match d with
  | DPrim n => Prim n
  | DContig c o => Vec (build o) c 1 (Z.of_nat c * mext (build o))
  | DVec c b s o => Vec (build o) c b (s * mext (build o))
  | DHvec c b s o => Vec (build o) c b s
  | DIndexed l o => hindexed (build o) (map (fun e => (fst e, snd e * mext (build o))) l)
  | DHindexed l o => hindexed (build o) l
  | DStruct l =>
    let l' := map (fun e => (fst e, build (snd e))) l in
    Ind (struct_blocks l') (struct_size l') (struct_extent l')
  end.
