(* Bandwidth arbitration of PISCES links.
   /repo/sstmac/hardware/pisces/pisces_arbitrator.cc, pisces_arbitrator.h *)
From Coq Require Import List ZArith Bool.
Import ListNotations.
Local Open Scope Z_scope.

(* Times are ticks in Z, without the 64-bit limit.  A packet given to arbitrate: st.now,
   numBytes() and the byteDelay() it comes with. *)
Record arrival : Type := { a_now : Z; a_bytes : Z; a_delay : Z }.

(* What arbitrate sets: st.head_leaves, st.tail_leaves and the packet's byte delay. *)
Record grant : Type := { g_head : Z; g_tail : Z; g_delay : Z }.

(* PiscesSimpleArbitrator::arbitrate, pisces_arbitrator.cc:112-126; the state is next_free_ *)
Definition simple (byte_delay : Z) (next_free : Z) (a : arrival) : Z * grant :=
  let start := if next_free <? a_now a then a_now a else next_free in
  let nf := start + a_bytes a * byte_delay in
  (nf, {| g_head := nf; g_tail := nf; g_delay := 0 |}).

(* PiscesNullArbitrator::arbitrate, pisces_arbitrator.cc:139-161; no state *)
Definition null (byte_delay : Z) (a : arrival) : grant :=
  let d := Z.max byte_delay (a_delay a) in
  {| g_head := a_now a; g_tail := a_now a + a_bytes a * d; g_delay := d |}.

(* PiscesCutThroughArbitrator::Epoch, pisces_arbitrator.h:185-215: start and numCycles.  The
   list linked by next, from head_ *)
Record epoch : Type := { e_start : Z; e_cycles : Z }.

Definition full : Z := 2 ^ 32 - 1.   (* numeric_limits<uint32_t>::max() *)
Definition w32 (z : Z) : Z := z mod 2 ^ 32.

(* clearOut, pisces_arbitrator.cc:190-238; cl is cycleLength_ *)
Fixpoint clear_out (cl now : Z) (l : list epoch) : list epoch :=
  match l with
  | [] => []
  | e :: r =>
    let stop := e_start e + e_cycles e * cl in
    if now <=? e_start e then
      match r with [] => [{| e_start := e_start e; e_cycles := full |}] | _ => l end
    else if now <? stop then
      match r with
      | [] => [{| e_start := now; e_cycles := full |}]
      | _ => {| e_start := now; e_cycles := w32 (e_cycles e - w32 ((now - e_start e) / cl)) |} :: r
      end
    else match r with
         | [] => [{| e_start := now; e_cycles := full |}]
         | _ => clear_out cl now r
         end
  end.

(* The loop of PiscesCutThroughArbitrator::arbitrate, pisces_arbitrator.cc:288-379.  done are
   the epochs before epoch (prev is the last of them); rest starts at epoch.  None: epoch is
   null, or the fuel is used up.  tail is None as long as st.tail_leaves is not set. *)
Fixpoint cut_loop (fuel : nat) (cl : Z) (a : arrival) (buffered : Z)
  (done rest : list epoch) (sent left : Z) (tail : option Z) : option (list epoch * option Z) :=
  if left <=? 2 then Some (done ++ rest, tail)
  else match fuel, rest with
  | O, _ | _, [] => None
  | S f, e :: r =>
    let stop := e_start e + e_cycles e * cl in
    if a_delay a <=? cl then
      if e_cycles e <=? left
      then cut_loop f cl a buffered done r (w32 (sent + e_cycles e)) (left - e_cycles e) (Some stop)
      else let e1 := {| e_start := e_start e + left * cl; e_cycles := e_cycles e - left |} in
           Some (done ++ e1 :: r, Some (e_start e1))
    else if stop <=? buffered then
      let arrived := w32 ((stop - a_now a) / a_delay a) in
      let b := Z.min left (w32 (arrived - sent)) in
      if e_cycles e <=? b
      then cut_loop f cl a buffered done r (w32 (sent + e_cycles e)) (left - e_cycles e) (Some stop)
      else cut_loop f cl a buffered (done ++ [{| e_start := e_start e; e_cycles := e_cycles e - b |}]) r
             (w32 (sent + b)) (left - b) (Some stop)
    else if buffered <=? e_start e then
      if left <? e_cycles e
      then let e1 := {| e_start := e_start e + left * cl; e_cycles := e_cycles e - left |} in
           Some (done ++ e1 :: r, Some (e_start e1))
      else cut_loop f cl a buffered done r (w32 (sent + e_cycles e)) (left - e_cycles e) (Some stop)
    else
      let dt := buffered - e_start e in
      let pre := w32 (dt / cl) in
      let post := w32 (e_cycles e - pre) in
      let nx := {| e_start := e_start e + dt; e_cycles := match r with [] => full | _ => post end |} in
      cut_loop f cl a buffered done ({| e_start := e_start e; e_cycles := pre |} :: nx :: r) sent left tail
  end.

(* PiscesCutThroughArbitrator::arbitrate, pisces_arbitrator.cc:260-414.  If the loop does not
   set st.tail_leaves, it stays as constructed, which is time 0 (pisces_sender.cc:112,
   timestamp.h:204-206).  The difference of times is unsigned; the division by a double is taken as
   exact division. *)
Definition cut_through (fuel : nat) (cl : Z) (l : list epoch) (a : arrival) : option (list epoch * grant) :=
  let l1 := clear_out cl (a_now a) l in
  match l1 with
  | [] => None
  | e :: _ =>
    match cut_loop fuel cl a (a_now a + a_delay a * a_bytes a) [] l1 0 (a_bytes a) None with
    | None => None
    | Some (l2, t) =>
      let tail := match t with Some x => x | None => 0 end in
      Some (l2, {| g_head := e_start e; g_tail := tail; g_delay := ((tail - e_start e) mod 2 ^ 64) / a_bytes a |})
    end
  end.

(* The constructor, pisces_arbitrator.cc:163-171 *)
Definition cut_init : list epoch := [{| e_start := 0; e_cycles := full |}].

Fixpoint simple_run (bd : Z) (nf : Z) (l : list arrival) : list grant :=
  match l with
  | [] => []
  | a :: r => let '(nf1, g) := simple bd nf a in g :: simple_run bd nf1 r
  end.
Fixpoint cut_run (fuel : nat) (cl : Z) (s : list epoch) (l : list arrival) : option (list epoch * list grant) :=
  match l with
  | [] => Some (s, [])
  | a :: r =>
    match cut_through fuel cl s a with
    | None => None
    | Some (s1, g) => match cut_run fuel cl s1 r with Some (s2, gs) => Some (s2, g :: gs) | None => None end
    end
  end.
