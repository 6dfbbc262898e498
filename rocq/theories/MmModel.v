(** The memory models of a node: sstmac/hardware/logp/logp_memory_model.cc, pisces/pisces_memory_model.cc,
    snappr/snappr_mem.cc, and the memory part of processor/instruction_processor.cc.
    Simplified: times are ticks, unbounded; the product of a time and a number is exact (the code multiplies
    doubles); a quotient is cut to whole ticks as in the code; debug output is not modelled. *)
From Coq Require Import List NArith Bool Arith.
Import ListNotations.
Open Scope N_scope.

(** * LogP memory *)
(** LogPMemoryModel::Link::newAccess, logp_memory_model.cc:88-97: [last] is last_access_; the delay after
    which the callback is executed, and the new last_access_. *)
Definition new_access (lat bd last now size req : N) : N * N :=
  let base := N.max now last in
  let l' := base + (lat + (req + bd) * size) in
  (l' - now, l').

(** LogPMemoryModel::accessFlow, logp_memory_model.cc:73-80: accesses (time, bytes, request delay); when
    their callbacks are executed. *)
Record access := mkaccess { a_at : N; a_size : N; a_req : N }.
Fixpoint flows (lat bd last : N) (l : list access) : list (access * N) :=
  match l with
  | [] => []
  | a :: t =>
      let '(d, l') := new_access lat bd last (a_at a) (a_size a) (a_req a) in
      (a, a_at a + d) :: flows lat bd l' t
  end.

(** * The processor *)
(** InstructionProcessor::instructionTime and compute, instruction_processor.cc:88-115, with LogP memory:
    [tf], [ti] are tflop_, tintop_; [ngl] is negligible_bytes_. The time after which the callback is executed
    and the new last_access_. *)
Record work := mkwork { flops : N; intops : N; nthread : N; bytes : N }.
Definition instr_time (tf ti : N) (w : work) : N := (flops w * tf + intops w * ti) / nthread w.
Definition compute (tf ti ngl lat bd last now : N) (w : work) : N * N :=
  let t := instr_time tf ti w in
  if bytes w <=? ngl then (t, last)
  else new_access lat bd last now (bytes w) (t / bytes w).

(** * PISCES memory *)
(** The arbitrator is elsewhere: an access ends some time after it has started, so the scheduled events are
    executed in any order. An access is a flow or a request for one packet. *)
Inductive acc := AFlow (id : nat) (size : N) | APkt (id : nat).
(** PiscesMemoryModel::ChannelRequest, pisces_memory_model.h:101-118, of a channel; [c_pieces]: what was
    requested for it from memory. *)
Record creq := mkcreq { c_id : nat; c_total : N; c_arrived : N; c_pieces : list N }.
(** The scheduled events: the callback of an access, channelFree, dataArrived. *)
Inductive ev := Cb (id : nat) (pieces : list N) | Free (ch : nat) | Data (ch : nat) (n : N).
(** [subs]: the flows that were asked for so far; [done]: whose callbacks were executed, with the pieces. *)
Record pmem := mkpmem {
  avail : list nat; stalled : list acc; chans : nat -> creq; evs : list ev;
  subs : list (nat * N); done : list (nat * list N) }.
(** PiscesMemoryModel::PiscesMemoryModel, pisces_memory_model.cc:66-90; the last element of
    channels_available_ is the first of avail. *)
Definition pm0 (n : nat) : pmem :=
  mkpmem (rev (seq 0 n)) [] (fun _ => mkcreq 0 0 0 []) [] [] [].
Definition setc {A} (f : nat -> A) (k : nat) (v : A) : nat -> A :=
  fun x => if Nat.eqb x k then v else f x.

(** PiscesMemoryModel::start, pisces_memory_model.cc:109-128, with access, lines 187-216; [p] is
    packet_size_. *)
Definition start (p : N) (ch id : nat) (size : N) (s : pmem) : pmem :=
  if size <=? p then
    mkpmem (avail s) (stalled s) (chans s) (evs s ++ [Cb id [size]; Free ch]) (subs s) (done s)
  else
    mkpmem (avail s) (stalled s) (setc (chans s) ch (mkcreq id size 0 [p]))
           (evs s ++ [Data ch p]) (subs s) (done s).
(** PiscesMemoryModel::accessFlow, pisces_memory_model.cc:97-107. *)
Definition access_flow (p : N) (id : nat) (size : N) (s : pmem) : pmem :=
  let u := subs s ++ [(id, size)] in
  match avail s with
  | [] => mkpmem [] (stalled s ++ [AFlow id size]) (chans s) (evs s) u (done s)
  | ch :: t => start p ch id size (mkpmem t (stalled s) (chans s) (evs s) u (done s))
  end.
(** PiscesMemoryModel::accessRequest, pisces_memory_model.cc:130-142, and access, lines 175-207; [None]:
    spkt_abort_printf. *)
Definition access_request (p : N) (id : nat) (size : N) (s : pmem) : option pmem :=
  if p <? size then None
  else Some match avail s with
       | [] => mkpmem [] (stalled s ++ [APkt id]) (chans s) (evs s) (subs s) (done s)
       | ch :: t => mkpmem t (stalled s) (chans s) (evs s ++ [Cb id [size]]) (subs s) (done s)
       end.
(** PiscesMemoryModel::channelFree, pisces_memory_model.cc:144-154; bytes_total of a stalled request for a
    packet is not initialised (pisces_memory_model.h:113-116): its value is [g]. *)
Definition channel_free (p g : N) (ch : nat) (s : pmem) : pmem :=
  match stalled s with
  | [] => mkpmem (ch :: avail s) [] (chans s) (evs s) (subs s) (done s)
  | AFlow id n :: t => start p ch id n (mkpmem (avail s) t (chans s) (evs s) (subs s) (done s))
  | APkt id :: t => start p ch id g (mkpmem (avail s) t (chans s) (evs s) (subs s) (done s))
  end.
(** A callback is executed; it may ask for flows itself, [r]. *)
Definition callback (p : N) (id : nat) (l : list N) (r : list (nat * N)) (s : pmem) : pmem :=
  fold_left (fun s x => access_flow p (fst x) (snd x) s) r
    (mkpmem (avail s) (stalled s) (chans s) (evs s) (subs s) (done s ++ [(id, l)])).
(** PiscesMemoryModel::dataArrived, pisces_memory_model.cc:156-173; uint32_t(bytes_total - bytes_arrived)
    is modulo 2^32. *)
Definition data_arrived (p g : N) (r : list (nat * N)) (ch : nat) (n : N) (s : pmem) : pmem :=
  let c := chans s ch in
  let a := c_arrived c + n in
  if a =? c_total c then channel_free p g ch (callback p (c_id c) (c_pieces c) r s)
  else
    let k := N.min p ((c_total c - a) mod 2 ^ 32) in
    mkpmem (avail s) (stalled s) (setc (chans s) ch (mkcreq (c_id c) (c_total c) a (c_pieces c ++ [k])))
           (evs s ++ [Data ch k]) (subs s) (done s).

(** Calls and events: the [i]-th scheduled event is executed. [None]: abort, or there is no such event. *)
Inductive op := Flow (id : nat) (size : N) | Req (id : nat) (size : N)
              | Fire (i : nat) (g : N) (r : list (nat * N)).
Definition step (p : N) (o : op) (s : pmem) : option pmem :=
  match o with
  | Flow id n => Some (access_flow p id n s)
  | Req id n => access_request p id n s
  | Fire i g r =>
      match nth_error (evs s) i with
      | None => None
      | Some e =>
          let s' := mkpmem (avail s) (stalled s) (chans s) (firstn i (evs s) ++ skipn (S i) (evs s))
                           (subs s) (done s) in
          Some match e with
               | Cb id l => callback p id l r s'
               | Free ch => channel_free p g ch s'
               | Data ch n => data_arrived p g r ch n s'
               end
      end
  end.
Fixpoint run (p : N) (l : list op) (s : pmem) : option pmem :=
  match l with [] => Some s | o :: t => match step p o s with Some s' => run p t s' | None => None end end.

(** * SNAPPR memory *)
(** A request: a piece of a flow (SnapprMemoryModel::FlowRequest, snappr_mem.h:94-96) or a request of the NIC. *)
Inductive sreq := SFlow (fid : nat) (n : N) | SNic (id : nat) (n : N).
Definition rbytes (r : sreq) : N := match r with SFlow _ n => n | SNic _ n => n end.
(** SnapprMemoryModel::Flow, snappr_mem.h:98-102; also when it started, and the pieces asked for so far. *)
Record sflow := mksflow { s_cb : nat; s_left : N; s_rd : N; s_t0 : N; s_pieces : list N }.
(** The scheduled events: accessRequest, the response handler, the callback of a flow. *)
Inductive sev := Issue (r : sreq) | Resp (r : sreq) | SCb (id : nat) (f : sflow).
(** One served request: the channel, when it was issued, when its head is there. *)
Record served := mkserved { v_ch : nat; v_issue : N; v_start : N; v_req : sreq }.
(** [nfree]: next_free of each channel; [inter]: channelInterleaver_; [log]: all served requests;
    [fdone]: the callbacks executed, with their times; [ndone]: the responses to the NIC. *)
Record smem := mksmem {
  now : N; nfree : nat -> N; inter : nat; fnext : nat; sflows : nat -> option sflow;
  sevs : list (N * sev); log : list served; fdone : list (N * nat * sflow); ndone : list (N * nat * N) }.
Definition sm0 : smem := mksmem 0 (fun _ => 0) 0 0 (fun _ => None) [] [] [] [].

(** SnapprMemoryModel::accessFlow, snappr_mem.cc:79-106; [mtu] is flow_mtu_; a flow of no bytes has no
    pieces. *)
Definition s_access_flow (mtu : N) (id : nat) (size rd : N) (s : smem) : smem :=
  if size =? 0 then
    mksmem (now s) (nfree s) (inter s) (fnext s) (sflows s)
           (sevs s ++ [(now s, SCb id (mksflow id 0 rd (now s) []))]) (log s) (fdone s) (ndone s)
  else
    let i := if size mod mtu =? 0 then mtu else size mod mtu in
    mksmem (now s) (nfree s) (inter s) (S (fnext s))
           (setc (sflows s) (fnext s) (Some (mksflow id (size - i) rd (now s) [i])))
           (sevs s ++ [(now s + rd * i, Issue (SFlow (fnext s) i))]) (log s) (fdone s) (ndone s).
(** SnapprMemoryModel::accessRequest, snappr_mem.cc:132-145; [nch] is the number of channels, [d] is
    channel_byte_delay_. *)
Definition s_access_request (nch : nat) (d : N) (r : sreq) (s : smem) : smem :=
  let q := inter s in
  let st := N.max (nfree s q) (now s) in
  mksmem (now s) (setc (nfree s) q (st + d * rbytes r)) (Nat.modulo (inter s + 1) nch) (fnext s) (sflows s)
         (sevs s ++ [(st, Resp r)]) (log s ++ [mkserved q (now s) st r]) (fdone s) (ndone s).
(** SnapprMemoryModel::flowRequestResponse, snappr_mem.cc:108-130, and the response to the NIC; [None]: there
    is no such flow. *)
Definition s_response (mtu d : N) (r : sreq) (s : smem) : option smem :=
  match r with
  | SNic id n => Some (mksmem (now s) (nfree s) (inter s) (fnext s) (sflows s) (sevs s) (log s) (fdone s)
                              (ndone s ++ [(now s, id, n)]))
  | SFlow k n =>
      match sflows s k with
      | None => None
      | Some f =>
          if s_left f =? 0 then
            Some (mksmem (now s) (nfree s) (inter s) (fnext s) (setc (sflows s) k None)
                         (sevs s ++ [(now s + n * d, SCb (s_cb f) f)]) (log s) (fdone s) (ndone s))
          else
            let f' := mksflow (s_cb f) (s_left f - mtu) (s_rd f) (s_t0 f) (s_pieces f ++ [mtu]) in
            Some (mksmem (now s) (nfree s) (inter s) (fnext s) (setc (sflows s) k (Some f'))
                         (sevs s ++ [(now s + mtu * s_rd f, Issue (SFlow k mtu))])
                         (log s) (fdone s) (ndone s))
      end
  end.
(** Calls and events; a call comes at a time not after the next event; an event is executed if no other is
    earlier (at equal times any order is possible). *)
Inductive sop := SoFlow (t : N) (id : nat) (size rd : N) | SoNic (t : N) (id : nat) (n : N) | SoFire (i : nat).
Definition at_time (t : N) (s : smem) : smem :=
  mksmem t (nfree s) (inter s) (fnext s) (sflows s) (sevs s) (log s) (fdone s) (ndone s).
Definition may (t : N) (s : smem) : bool := (now s <=? t) && forallb (fun e => t <=? fst e) (sevs s).
Definition sstep (nch : nat) (mtu d : N) (o : sop) (s : smem) : option smem :=
  match o with
  | SoFlow t id n rd => if may t s then Some (s_access_flow mtu id n rd (at_time t s)) else None
  | SoNic t id n => if may t s then Some (s_access_request nch d (SNic id n) (at_time t s)) else None
  | SoFire i =>
      match nth_error (sevs s) i with
      | None => None
      | Some (t, e) =>
          if may t s then
            let s' := mksmem t (nfree s) (inter s) (fnext s) (sflows s)
                             (firstn i (sevs s) ++ skipn (S i) (sevs s)) (log s) (fdone s) (ndone s) in
            match e with
            | Issue r => Some (s_access_request nch d r s')
            | Resp r => s_response mtu d r s'
            | SCb id f => Some (mksmem t (nfree s') (inter s') (fnext s') (sflows s') (sevs s') (log s')
                                       (fdone s' ++ [(t, id, f)]) (ndone s'))
            end
          else None
      end
  end.
Fixpoint srun (nch : nat) (mtu d : N) (l : list sop) (s : smem) : option smem :=
  match l with
  | [] => Some s
  | o :: t => match sstep nch mtu d o s with Some s' => srun nch mtu d t s' | None => None end
  end.
