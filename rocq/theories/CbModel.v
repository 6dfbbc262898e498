(** Model of the inter-rank send buffers (sstmac/backends/common/parallel_runtime.h,
    parallel_runtime.cc) and of the way events are written to and read from them. *)
From Coq Require Import List Arith NArith Bool.
From Verif Require Import SerModel.
Import ListNotations.

(** align64, parallel_runtime.h:64-69. *)
Definition align64 (t : nat) : nat := if t mod 64 =? 0 then t else t + 64 - t mod 64.

(** A buffer's content, by offset from its start. *)
Definition mem := nat -> byte.

(** Writing [bs] at offset [off] (a thread packing into the space it was given). *)
Definition wr (m : mem) (off : nat) (bs : list byte) : mem :=
  fun p => if (off <=? p) && (p <? off + length bs) then nth (p - off) bs 0%N else m p.

(** memcpy(dst+off, src+off, n). *)
Definition cp (dst src : mem) (off n : nat) : mem :=
  fun p => if (off <=? p) && (p <? off + n) then src p else dst p.

(** BackupBuffer, parallel_runtime.h:98-102. *)
Record backup := Bk { bmax : nat; bfill : nat; bbuf : mem }.

(** Where allocateSpace put a message: the main buffer or the k-th backup. *)
Inductive place := Main | Back (k : nat).

(** A message: the offset it reserved, the bytes its thread will write, where it was
    placed (None: its thread has done the atomic add but not yet the rest), and whether
    the bytes have been written. *)
Record msg := Msg { start : nat; data : list byte; loc : option place; written : bool }.

Definition stop (m : msg) : nat := start m + length (data m).

(** CommBuffer, parallel_runtime.h:91-163; [allocs]=bytesAllocated, [filled]=filledSize.
    [msgs]: the messages of this window in the order of the atomic add. *)
Record cbuf := CB { cap : nat; allocs : nat; filled : nat; store : mem; backs : list backup; msgs : list msg }.

(** The while loop of allocateSpace, parallel_runtime.cc:100-103. *)
Fixpoint enough (fuel sz need : nat) : nat :=
  match fuel with
  | O => sz
  | S f => if sz <? need then enough f (sz * 8) need else sz
  end.

(** The search over the existing backups, parallel_runtime.cc:91-98. *)
Fixpoint find_backup (k need : nat) (bs : list backup) : option nat :=
  match bs with
  | [] => None
  | b :: r => if need <? bmax b then Some k else find_backup (S k) need r
  end.

Fixpoint upd {A} (l : list A) (i : nat) (x : A) : list A :=
  match l, i with
  | [], _ => []
  | _ :: r, O => x :: r
  | y :: r, S i' => y :: upd r i' x
  end.

Definition blank : backup := Bk 0 0 (fun _ => 0%N).

(** The second half of allocateSpace, after the atomic add, parallel_runtime.cc:83-118,
    for a thread whose space is [s, e). [bsize] is backupSize; the fresh buffer's
    content is arbitrary ([junk]). *)
Definition settle (bsize : nat) (junk : mem) (c : cbuf) (s e : nat) : cbuf * place :=
  if cap c <? e then
    let fill := if s <=? cap c then s else filled c in
    match find_backup 0 e (backs c) with
    | Some k =>
        let b := nth k (backs c) blank in
        (CB (cap c) (allocs c) fill (store c)
            (upd (backs c) k (Bk (bmax b) (Nat.max e (bfill b)) (bbuf b))) (msgs c), Back k)
    | None =>
        let first := match backs c with [] => bsize | _ => bmax (last (backs c) blank) * 8 end in
        let sz := enough e first e in
        (CB (cap c) (allocs c) fill (store c) (backs c ++ [Bk sz e junk]) (msgs c),
         Back (length (backs c)))
    end
  else (c, Main).

(** The steps of concurrently sending threads. Reserve: the atomic add at
    parallel_runtime.cc:81-82. Settle i: the rest of allocateSpace for message i (under
    the buffer's lock). Write i: the thread packs its event into the space. *)
Inductive act := Reserve (d : list byte) | Settle (i : nat) (junk : mem) | Write (i : nat).

Definition step (bsize : nat) (c : cbuf) (a : act) : option cbuf :=
  match a with
  | Reserve d =>
      Some (CB (cap c) (allocs c + length d) (filled c) (store c) (backs c)
               (msgs c ++ [Msg (allocs c) d None false]))
  | Settle i junk =>
      match nth_error (msgs c) i with
      | Some m =>
          match loc m with
          | None =>
              let (c', p) := settle bsize junk c (start m) (stop m) in
              Some (CB (cap c') (allocs c') (filled c') (store c') (backs c')
                       (upd (msgs c') i (Msg (start m) (data m) (Some p) false)))
          | Some _ => None
          end
      | None => None
      end
  | Write i =>
      match nth_error (msgs c) i with
      | Some m =>
          match loc m, written m with
          | Some Main, false =>
              Some (CB (cap c) (allocs c) (filled c) (wr (store c) (start m) (data m)) (backs c)
                       (upd (msgs c) i (Msg (start m) (data m) (Some Main) true)))
          | Some (Back k), false =>
              let b := nth k (backs c) blank in
              Some (CB (cap c) (allocs c) (filled c) (store c)
                       (upd (backs c) k (Bk (bmax b) (bfill b) (wr (bbuf b) (start m) (data m))))
                       (upd (msgs c) i (Msg (start m) (data m) (Some (Back k)) true)))
          | _, _ => None
          end
      | None => None
      end
  end.

Fixpoint run (bsize : nat) (c : cbuf) (l : list act) : option cbuf :=
  match l with
  | [] => Some c
  | a :: r => match step bsize c a with Some c' => run bsize c' r | None => None end
  end.

(** A buffer just after realloc or reset, parallel_runtime.cc:139-166. *)
Definition fresh (capacity : nat) (m : mem) : cbuf := CB capacity 0 0 m [] [].

(** The loop of copyToBackup, parallel_runtime.cc:126-136. *)
Fixpoint copy_loop (final : mem) (next : mem) (last_fill mark : nat) (bs : list backup) : mem :=
  match bs with
  | [] => final
  | b :: r => let n := mark - last_fill in
              copy_loop (cp final next last_fill n) (bbuf b) (last_fill + n) (bfill b) r
  end.

(** What MpiRuntime::sendRecvMessages sends, mpi_runtime.cc:264-276: the first
    totalBytes() bytes of the main buffer, or of the last backup after copyToBackup. *)
Definition final_mem (c : cbuf) : mem :=
  match backs c with
  | [] => store c
  | bs => copy_loop (bbuf (last bs blank)) (store c) 0 (filled c) bs
  end.

Definition sent (c : cbuf) : list byte := map (final_mem c) (seq 0 (allocs c)).

(** reset, parallel_runtime.cc:139-154. *)
Definition reset (c : cbuf) (m : mem) : cbuf :=
  match backs c with
  | [] => CB (cap c) 0 0 (store c) [] []
  | _ => let ratio := Nat.min (Nat.max 2 (allocs c / cap c)) 8 in fresh (cap c * ratio) m
  end.

(** ** Events in the buffers *)

(** runSerialize, parallel_runtime.cc:314-324: ser_size, thread, t, seqnum, link, rank
    (ipc_event.h:53-60), then the event pointer. *)
Definition ipc_ty : ty := TStruct [TPrim 4; TPrim 4; TPrim 16; TPrim 4; TPrim 8; TPrim 4; TPtr].

Definition overhead : nat := 4 + 16 + 4 + 8 + 4 + 4.

Record ipc := Ipc { thread : list byte; time : list byte; seqnum : list byte; link : list byte;
                    rank : list byte; ev : val }.

Definition ipc_val (ser_size : nat) (e : ipc) : val :=
  VSeq [VPrim (enc 4 (N.of_nat ser_size)); VPrim (thread e); VPrim (time e); VPrim (seqnum e);
        VPrim (link e); VPrim (rank e); ev e].

(** sendEvent, parallel_runtime.cc:326-351: the size to allocate and the bytes packed.
    What follows the packed bytes in the allocated space is whatever was there. *)
Definition ser_size (reg : registry) (e : ipc) : option nat :=
  match size reg TPtr (ev e) with
  | Some s => Some (align64 (overhead + s))
  | None => None
  end.

Definition send_event (reg : registry) (e : ipc) : option (nat * list byte) :=
  match ser_size reg e with
  | Some n => match pack reg n ipc_ty (ipc_val n e) [] with
              | Some bs => Some (n, bs)
              | None => None
              end
  | None => None
  end.

(** An IpcEvent local variable: uninitialised members. *)
Definition raw_ipc : val := VSeq [VUndef; VUndef; VUndef; VUndef; VUndef; VUndef; VUndef].

(** serializeSchedule, event_manager.cc:222-234, without the scheduling: the event read
    and the aligned size consumed. *)
Definition read_event (reg : registry) (ltb : val -> val -> bool) (fuel : nat) (buf : list byte)
  : option (val * nat) :=
  match unpack reg ltb fuel ipc_ty raw_ipc buf with
  | Some (v, rest) => Some (v, align64 (length buf - length rest))
  | None => None
  end.

(** The loop of receiveIncomingEvents over one buffer, clock_cycle_event_container.cc:134-140.
    [fuel] bounds the number of events; bytesRemaining is the length of [buf]; taking
    more than remains would wrap around in the code and is a failure here. *)
Fixpoint receive (reg : registry) (ltb : val -> val -> bool) (depth fuel : nat) (buf : list byte)
  : option (list val) :=
  match buf with
  | [] => Some []
  | _ =>
    match fuel with
    | O => None
    | S f =>
        match read_event reg ltb depth buf with
        | Some (v, n) =>
            if length buf <? n then None
            else match receive reg ltb depth f (skipn n buf) with
                 | Some l => Some (v :: l)
                 | None => None
                 end
        | None => None
        end
    end
  end.
