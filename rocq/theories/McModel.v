(** MPI collectives above the collective engine: sumi-mpi/mpi_api_collectives.cc. A call
    prepares an operation (packing what is not contiguous), runs one engine collective
    on the buffers of the operation and stores the result (unpacking).
    SIMPLIFIED: every rank has a memory of its own; buffers that are not null; ints are
    unbounded; communicators without SMP sub-communicators (sim_transport.cc:793, 850). *)
From Coq Require Import List Arith ZArith Bool.
From Verif Require Import DtModel RdModel AgModel AaModel PhModel BcModel GaModel ScModel.
Import ListNotations.
Local Open Scope Z_scope.

(** Buffer arguments; MPI_IN_PLACE is the address -1 (mpi_types.h). *)
Inductive ptr := PNull | PInPlace | PAt (a : Z).

Definition padd (p : ptr) (z : Z) : ptr := match p with PAt a => PAt (a + z) | q => q end.

(** What one rank passes: the send side and the receive side. [None] as type is
    MPI_DATATYPE_NULL. *)
Record call := { c_send : ptr; c_scnt : nat; c_st : option dt;
                 c_recv : ptr; c_rcnt : nat; c_rt : option dt }.

Section Mc.
Context {A : Type}.

(** tmp_sendbuf / tmp_recvbuf: the user's buffer, or a new packed buffer of [size] bytes. *)
Inductive tbuf := TPtr (p : ptr) | TTemp (size : nat) (b : mem A).

(** CollectiveOp, mpi_api.h / mpi_request.h: the fields used below. *)
Record op := { o_recv : ptr; o_scnt : nat; o_rcnt : nat; o_st : mtype; o_rt : mtype;
               o_ts : tbuf; o_tr : tbuf }.

Definition view (m : mem A) (a : Z) : mem A := fun x => m (a + x).

(** packSend from a user's buffer; packing from an address that is none is a crash. *)
Definition pack_at (m : mem A) (p : ptr) (t : mtype) (n : nat) (junk : mem A) : option (mem A) :=
  match p with PAt a => Some (pack_with (packn t n) (view m a) junk) | _ => None end.

Definition is_null (p : ptr) : bool := match p with PNull => true | _ => false end.

(** startMpiCollective, mpi_api_collectives.cc:86-153, with allocateTempPackBuffer
    155-160. [own]: the collective is a gather or an allgather (98-101). [None]: an
    exception (unknown type) or a crash. [junk] is what is in a new buffer. *)
Definition start (own : bool) (rank : nat) (c : call) (m junk : mem A) : option op :=
  let '(sp, scnt, st) :=
    match c_send c with
    | PInPlace =>
      (match c_recv c with
       | PNull => PInPlace
       | r => padd r (match own, c_rt c with
                      | true, Some t => mext (build t) * Z.of_nat (c_rcnt c) * Z.of_nat rank
                      | _, _ => 0 end)
       end, c_rcnt c, c_rt c)
    | s => (s, c_scnt c, c_st c)
    end in
  match (match st, c_rt c with
         | None, None => None
         | None, Some t => Some (match c_send c with PInPlace => sp | _ => PNull end, c_rcnt c, t, c_recv c, c_rcnt c, t)
         | Some t, None => Some (sp, scnt, t, match c_recv c with PInPlace => PInPlace | _ => PNull end, scnt, t)
         | Some t, Some t' => Some (sp, scnt, t, c_recv c, c_rcnt c, t')
         end) with
  | None => None
  | Some (sp, scnt, st, rp, rcnt, rt) =>
    let st := build st in
    let rt := build rt in
    match (if negb (is_null sp) && negb (mcontig st)
           then option_map (TTemp (msize st * scnt)) (pack_at m sp st scnt junk)
           else Some (TPtr sp)) with
    | None => None
    | Some ts =>
      Some {| o_recv := rp; o_scnt := scnt; o_rcnt := rcnt; o_st := st; o_rt := rt; o_ts := ts;
              o_tr := if negb (is_null rp) && negb (mcontig rt) then TTemp (msize rt * rcnt) junk
                      else TPtr (c_recv c) |}
    end
  end.

(** nelems * type_size as every start function passes them: sendcnt and
    sendtype->packed_size(), e.g. 246-248. *)
Definition o_bytes (o : op) : nat := (o_scnt o * msize (o_st o))%nat.

(** The calls of the single collectives. Allgather 251-270 and alltoall 335-354 pass
    their arguments on. *)
Definition allgather_op (rank : nat) := start true rank.
Definition alltoall_op (rank : nat) := start false rank.

(** startBcast, 553-584: [c_send] is the buffer; rank [root] sends it, the others
    receive it. *)
Definition bcast_op (root rank : nat) (c : call) : mem A -> mem A -> option op :=
  start false rank
    (if Nat.eqb rank root
     then {| c_send := c_send c; c_scnt := c_scnt c; c_st := c_st c; c_recv := PNull; c_rcnt := c_scnt c; c_rt := None |}
     else {| c_send := PNull; c_scnt := c_scnt c; c_st := None; c_recv := c_send c; c_rcnt := c_scnt c; c_rt := c_st c |}).

(** startGather, 636-674. *)
Definition gather_op (root rank : nat) (c : call) : mem A -> mem A -> option op :=
  let c := match c_send c with
    | PInPlace =>
      {| c_send := match c_recv c with
           | PNull => PInPlace
           | r => padd r (match c_rt c with
                          | Some t => mext (build t) * Z.of_nat (c_rcnt c) * Z.of_nat rank | None => 0 end)
           end;
         c_scnt := c_rcnt c; c_st := c_rt c; c_recv := c_recv c; c_rcnt := c_rcnt c; c_rt := c_rt c |}
    | _ => c end in
  start true rank
    (if Nat.eqb rank root then c
     else {| c_send := c_send c; c_scnt := c_scnt c; c_st := c_st c; c_recv := PNull; c_rcnt := c_rcnt c; c_rt := None |}).

(** startScatter, 1034-1062. *)
Definition scatter_op (root rank : nat) (c : call) : mem A -> mem A -> option op :=
  start false rank
    (if Nat.eqb rank root then c
     else {| c_send := PNull; c_scnt := c_scnt c; c_st := None; c_recv := c_recv c; c_rcnt := c_rcnt c; c_rt := c_rt c |}).

(** The bytes behind a buffer of an operation. *)
Definition content (dflt : A) (m : mem A) (t : tbuf) : nat -> A :=
  fun i => match t with
           | TPtr (PAt a) => m (a + Z.of_nat i)
           | TTemp _ b => b (Z.of_nat i)
           | _ => dflt end.

Definition same_buf (s t : tbuf) : bool :=
  match s, t with TPtr (PAt a), TPtr (PAt b) => a =? b | _, _ => false end.

(** finishCollectiveOp, 169-185, once the engine has left [res] in tmp_recvbuf; a result
    in the user's buffer is already where it belongs. *)
Definition finish (o : op) (res : nat -> A) (m : mem A) : mem A :=
  match o_tr o with
  | TPtr (PAt a) => fun x => if x <? a then m x else res (Z.to_nat (x - a))
  | TPtr _ => m
  | TTemp _ _ =>
    match o_recv o with
    | PAt a => fun x => unpack_with (packn (o_rt o) (o_rcnt o)) (fun z => res (Z.to_nat z)) (view m a) (x - a)
    | _ => m
    end
  end.

(** ---- the engine ---- [ops p] is the operation of rank [p] and [ms p] its memory. A
    communicator of one rank skips the collective (skipCollective, sim_transport.cc:
    614-628). Each of the following holds if rank [p] has ended the collective in some
    execution, [res] being what its result buffer then holds. *)
Variable dflt : A.
Definition snd_of (ops : nat -> op) (ms : nat -> mem A) (p : nat) : nat -> A := content dflt (ms p) (o_ts (ops p)).
Definition rcv_of (ops : nat -> op) (ms : nat -> mem A) (p : nat) : nat -> A := content dflt (ms p) (o_tr (ops p)).
(** All ranks' buffers; the engine's in_place, allgather.cc:82. *)
Definition src_of (ops : nat -> op) (ms : nat -> mem A) (p : nat) : option (nat -> A) :=
  if same_buf (o_ts (ops p)) (o_tr (ops p)) then None else Some (snd_of ops ms p).

Definition skipped (ops : nat -> op) (ms : nat -> mem A) (ne p : nat) : nat -> A :=
  bwrite (rcv_of ops ms p) 0 (bread (snd_of ops ms p) 0 ne).

(** CollectiveEngine::allgather, sim_transport.cc:833-885, with the Bruck algorithm. *)
Definition allgather_ends (n ne : nat) (ops : nat -> op) (ms : nat -> mem A) (p : nat) (res : nat -> A) : Prop :=
  if Nat.eqb n 1 then res = skipped ops ms ne p
  else exists k c, let s := bruck_sched n ne (rcv_of ops ms) (src_of ops ms) in
       rexec s k c /\ l_rnd (r_loc c p) = sc_nr s /\ res = bruck_finalize n ne p (l_mem (r_loc c p)).

(** CollectiveEngine::alltoall, sim_transport.cc:776-819. BruckAlltoallActor::initBuffers
    (alltoall.cc:65-87) copies twice from the send buffer to the result buffer; if the
    two are the same memory the second copy reads what the first one wrote
    ([alias_init]; McProof.seen_alias). [seen]: the send buffer that aa_init has to read
    for the same effect.
    SIMPLIFIED: a memcpy whose ranges overlap copies as memmove does. *)
Definition alias_init (n ne me : nat) (b : nat -> A) : nat -> A :=
  let offset := (me * ne)%nat in
  let total := (n * ne)%nat in
  let b1 := bwrite b 0 (bread b offset (total - offset)) in
  bwrite b1 (total - offset) (bread b1 0 offset).
Definition seen (n ne me : nat) (b : nat -> A) : nat -> A :=
  let b1 := bwrite b 0 (bread b (me * ne) (n * ne - me * ne)) in
  fun i => if (i <? me * ne)%nat then b1 i else b i.
Definition alltoall_sched (n ne : nat) (ops : nat -> op) (ms : nat -> mem A) (tmp : nat -> A) :=
  aa_sched n ne (rcv_of ops ms)
    (fun p => if same_buf (o_ts (ops p)) (o_tr (ops p)) then seen n ne p (rcv_of ops ms p) else snd_of ops ms p) tmp.
Definition alltoall_ends (n ne : nat) (ops : nat -> op) (ms : nat -> mem A) (tmp : nat -> A) (p : nat) (res : nat -> A) : Prop :=
  if Nat.eqb n 1 then res = skipped ops ms ne p
  else exists k c, let s := alltoall_sched n ne ops ms tmp in
       rexec s k c /\ l_rnd (r_loc c p) = sc_nr s /\ res = aa_finalize n ne p (a_res (l_mem (r_loc c p))).

(** startBcast, mpi_api_collectives.cc:543-550, and CollectiveEngine::bcast,
    sim_transport.cc:713-723. *)
Definition bcast_buf (root : nat) (ops : nat -> op) (ms : nat -> mem A) (p : nat) : nat -> A :=
  if Nat.eqb p root then snd_of ops ms p else rcv_of ops ms p.
Definition bcast_ends (n root ne : nat) (ops : nat -> op) (ms : nat -> mem A) (p : nat) (res : nat -> A) : Prop :=
  if Nat.eqb n 1 then res = bcast_buf root ops ms p
  else exists k c, pexec (bcast_prog n root ne (bcast_buf root ops ms)) k c /\ pdone (p_proc c p) /\
       res = w_mem (p_proc c p).

(** CollectiveEngine::gather, sim_transport.cc:739-749: at the root the buffer worked on
    is the result buffer (gather.cc:73-76), elsewhere [work]. *)
Definition gather_bufs (root : nat) (ops : nat -> op) (ms : nat -> mem A) (work : nat -> nat -> A) (p : nat) : nat -> A :=
  if Nat.eqb p root then rcv_of ops ms p else work p.
Definition gather_ends (n root ne : nat) (ops : nat -> op) (ms : nat -> mem A) (work : nat -> nat -> A)
  (res : nat -> A) : Prop :=
  if Nat.eqb n 1 then res = skipped ops ms ne root
  else exists k c, pexec (gather_prog n root ne (snd_of ops ms) (gather_bufs root ops ms work)) k c /\
       pdone (p_proc c root) /\ res = w_mem (p_proc c root).

(** CollectiveEngine::scatter, sim_transport.cc:751-761. SIMPLIFIED: the buffers of the
    root do not overlap. *)
Definition scatter_ends (n root ne : nat) (ops : nat -> op) (ms : nat -> mem A) (work : nat -> nat -> A)
  (p : nat) (res : nat -> A) : Prop :=
  if Nat.eqb n 1 then res = skipped ops ms ne p
  else exists k c, let g := scatter_prog n root ne (snd_of ops ms root)
                              (fun q => {| s_rcv := work q; s_res := rcv_of ops ms q |}) in
       pexec g k c /\ pdone (p_proc c p) /\ res = s_res (w_mem (p_proc c p)).
End Mc.
Arguments tbuf : clear implicits.
Arguments op : clear implicits.
