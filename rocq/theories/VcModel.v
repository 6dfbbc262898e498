(** MPI collectives with a count per rank: sumi-mpi/mpi_api_vcollectives.cc, and the
    algorithm behind MPI_Alltoallv: class DirectAlltoallvActor, sumi/alltoallv.cc:65-142.
    Same conventions as McModel.v. *)
From Coq Require Import List Arith ZArith Bool.
From Verif Require Import DtModel RdModel AgModel AvModel McModel.
Import ListNotations.
Local Open Scope Z_scope.

(** The arguments of one rank. Counts and displacements are in elements. *)
Record vcall := { v_send : ptr; v_scnts : nat -> nat; v_sdispls : nat -> nat; v_st : option dt;
                  v_recv : ptr; v_rcnts : nat -> nat; v_rdispls : nat -> nat; v_rt : option dt }.

Section Vc.
Context {A : Type}.

(** startAllgatherv, 92-111: CollectivevOp sets sendcnt to the send count (that is
    [v_scnts c rank] here) and recvcnt to 0 (mpi_request.cc:66-73). *)
Definition allgatherv_op (rank : nat) (c : vcall) : mem A -> mem A -> option (op A) :=
  start false rank {| c_send := v_send c; c_scnt := v_scnts c rank; c_st := v_st c;
                      c_recv := v_recv c; c_rcnt := 0; c_rt := v_rt c |}.

(** startAlltoallv with buffers, 171-187: sendcnt = recvcnt = 0 (mpi_request.cc:84-92). *)
Definition alltoallv_op (rank : nat) (c : vcall) : mem A -> mem A -> option (op A) :=
  start false rank {| c_send := v_send c; c_scnt := 0; c_st := v_st c;
                      c_recv := v_recv c; c_rcnt := 0; c_rt := v_rt c |}.

(** What the engine is told: the counts and sendtype->packed_size(), 85-87 and 165-168;
    as bytes. The displacements are not passed on. *)
Definition v_bytes (cnts : nat -> nat) (o : op A) (j : nat) : nat := (cnts j * msize (o_st o))%nat.

(** finishVcollectiveOp, 66-80: [None] is the exception. *)
Definition finishv (o : op A) (res : nat -> A) (m : mem A) : option (mem A) :=
  match o_tr o, o_ts o with
  | TPtr _, TPtr _ => Some (finish o res m)
  | _, _ => None end.

Variable dflt : A.

(** CollectiveEngine::allgatherv, sim_transport.cc:888-899; [cs] are the bytes of each
    rank, the same at every rank. *)
Definition allgatherv_ends (n : nat) (cs : nat -> nat) (ops : nat -> op A) (ms : nat -> mem A) (p : nat) (res : nat -> A) : Prop :=
  if Nat.eqb n 1 then res = skipped dflt ops ms (cs 0%nat) p
  else exists k c, let s := av_sched n cs (rcv_of dflt ops ms) (src_of dflt ops ms) in
       rexec s k c /\ l_rnd (r_loc c p) = sc_nr s /\ res = av_finalize n cs p (l_mem (r_loc c p)).
End Vc.

(** ---- DirectAlltoallvActor ---- *)
Section Direct.
Local Open Scope nat_scope.
Context {T : Type}.
(** Number of ranks (dom_nproc_), the send buffers, the counts of every rank
    (send_counts_ and recv_counts_, in bytes) and which messages are eager. *)
Variables (n : nat) (src : nat -> nat -> T) (sc rc : nat -> nat -> nat) (eager : nat -> nat -> bool).

(** addAction, 83-97: the partner of loop index [i], and the one whose action is the
    precursor if [i] is not below num_initial = 3 (123). *)
Definition send_to (me i : nat) : nat := (me + n + i) mod n.
Definition recv_from (me i : nat) : nat := (me + n - i) mod n.
Definition send_prev (partner : nat) : nat := (partner + n - 3) mod n.
Definition recv_prev (partner : nat) : nat := (partner + n + 3) mod n.

(** Which actions have started and completed: [d_ss p q] the send of [p] to [q],
    [d_rs q p] the receive of [q] from [p]; messages on the way; result buffers; the
    messages sent, newest first. *)
Record dcf := { d_ss : nat -> nat -> bool; d_sd : nat -> nat -> bool;
                d_rs : nat -> nat -> bool; d_rd : nat -> nat -> bool;
                d_msg : nat -> nat -> option (list T); d_mem : nat -> nat -> T;
                d_sent : list (nat * nat * nat) }.

Definition upd2 {X} (f : nat -> nat -> X) (p q : nat) (x : X) : nat -> nat -> X :=
  fun a b => if (a =? p) && (b =? q) then x else f a b.

(** initDag, 99-131: send_offset and recv_offset are 0 for every partner. Sends and
    receives run as in DagModel.v: an action starts when its precursor has completed. A
    receive completes when its message is there; an eager send at any time, any other
    send only once the receiver has the data.
    SIMPLIFIED: the data is read when the send starts; the send buffer does not change. *)
Inductive dst : dcf -> dcf -> Prop :=
| d_send : forall c p i q, p < n -> i < n -> q = send_to p i -> d_ss c p q = false ->
    (i < 3 \/ d_sd c p (send_prev q) = true) ->
    dst c {| d_ss := upd2 (d_ss c) p q true; d_sd := d_sd c; d_rs := d_rs c; d_rd := d_rd c;
             d_msg := upd2 (d_msg c) p q (Some (bread (src p) 0 (sc p q))); d_mem := d_mem c;
             d_sent := (p, q, sc p q) :: d_sent c |}
| d_post : forall c p i q, p < n -> i < n -> q = recv_from p i -> d_rs c p q = false ->
    (i < 3 \/ d_rd c p (recv_prev q) = true) ->
    dst c {| d_ss := d_ss c; d_sd := d_sd c; d_rs := upd2 (d_rs c) p q true; d_rd := d_rd c;
             d_msg := d_msg c; d_mem := d_mem c; d_sent := d_sent c |}
| d_done : forall c p q, p < n -> q < n -> d_ss c p q = true -> d_sd c p q = false ->
    (eager p q = true \/ d_rd c q p = true) ->
    dst c {| d_ss := d_ss c; d_sd := upd2 (d_sd c) p q true; d_rs := d_rs c; d_rd := d_rd c;
             d_msg := d_msg c; d_mem := d_mem c; d_sent := d_sent c |}
| d_recv : forall c p q m, p < n -> q < n -> d_msg c p q = Some m -> d_rs c q p = true ->
    dst c {| d_ss := d_ss c; d_sd := d_sd c; d_rs := d_rs c; d_rd := upd2 (d_rd c) q p true;
             d_msg := upd2 (d_msg c) p q None;
             d_mem := (fun a => if a =? q then bwrite (d_mem c q) 0 (firstn (rc q p) m) else d_mem c a);
             d_sent := d_sent c |}.

Inductive dex (mem0 : nat -> nat -> T) : nat -> dcf -> Prop :=
| dex0 : dex mem0 0 {| d_ss := fun _ _ => false; d_sd := fun _ _ => false; d_rs := fun _ _ => false; d_rd := fun _ _ => false;
                       d_msg := fun _ _ => None; d_mem := mem0; d_sent := [] |}
| dexS : forall k c c', dex mem0 k c -> dst c c' -> dex mem0 (S k) c'.

(** checkCollectiveDone, collective_actor.cc:415-425: all actions of [p] have completed. *)
Definition d_over (c : dcf) (p : nat) : Prop := forall q, q < n -> d_sd c p q = true /\ d_rd c p q = true.
End Direct.
Arguments dcf : clear implicits.

(** CollectiveEngine::alltoallv, sim_transport.cc:821-831. *)
Definition alltoallv_ends {A} (dflt : A) (n : nat) (sc rc : nat -> nat -> nat) (eager : nat -> nat -> bool)
  (ops : nat -> op A) (ms : nat -> mem A) (p : nat) (res : nat -> A) : Prop :=
  if Nat.eqb n 1 then res = skipped dflt ops ms (sc 0%nat 0%nat) p
  else exists k c, dex n (snd_of dflt ops ms) sc rc eager (rcv_of dflt ops ms) k c /\ d_over n c p /\ res = d_mem c p.
