(** Timestamps: sstmac/common/timestamp.h and timestamp.cc. *)
From Coq Require Import NArith Bool.
Local Open Scope N_scope.

Definition two64 : N := 18446744073709551616.
Definition two32 : N := 4294967296.

(** uint64_t and uint32_t arithmetic. *)
Definition u64 (x : N) : N := x mod two64.
Definition u32 (x : N) : N := x mod two32.
Definition add64 (a b : N) : N := u64 (a + b).
Definition sub64 (a b : N) : N := u64 (a + (two64 - u64 b)).

(** TimeDelta (timestamp.h:64-165): a 64-bit tick count.
    Timestamp (timestamp.h:196-265): epoch counter and TimeDelta. *)
Record ts := Ts { epochs : N; ticks : N }.

(** timestamp.h:263-265. *)
Definition carry_bits_mask : N := 0.
Definition remainder_bits_mask : N := 18446744073709551615.
Definition carry_bits_shift : N := 0.

(** operator+(Timestamp, TimeDelta), timestamp.h:277-283; also operator+=, timestamp.cc:148-156. *)
Definition ts_add (a : ts) (d : N) : ts :=
  let sum := add64 (ticks a) d in
  let carry := u64 (N.shiftl (N.land sum carry_bits_mask) carry_bits_shift) in
  let rem := N.land sum remainder_bits_mask in
  Ts (add64 carry (epochs a)) rem.

(** operator-(Timestamp, Timestamp), timestamp.h:285-291; [None] is abort. *)
Definition ts_diff (a b : ts) : option N :=
  if epochs a =? epochs b then Some (sub64 (ticks a) (ticks b)) else None.

(** operator+(Timestamp, Timestamp), timestamp.h:297-301. *)
Definition ts_add_ts (a b : ts) : ts :=
  let tmp := ts_add b (ticks a) in
  Ts (add64 (epochs tmp) (epochs a)) (ticks tmp).

(** operator-(Timestamp, TimeDelta), timestamp.h:303-313. *)
Definition ts_sub (a : ts) (d : N) : ts :=
  if d <? ticks a then Ts (epochs a) (sub64 (ticks a) d)
  else Ts (sub64 (epochs a) 1) (sub64 remainder_bits_mask d).

(** Comparison operators, timestamp.h:315-353. *)
Definition ts_ge (a b : ts) : bool :=
  if epochs a =? epochs b then ticks b <=? ticks a else epochs b <=? epochs a.
Definition ts_ne (a b : ts) : bool :=
  if epochs a =? epochs b then negb (ticks a =? ticks b) else true.
Definition ts_lt (a b : ts) : bool :=
  if epochs a =? epochs b then ticks a <? ticks b else epochs a <? epochs b.
Definition ts_eq (a b : ts) : bool := (epochs a =? epochs b) && (ticks a =? ticks b).
Definition ts_gt (a b : ts) : bool := ts_lt b a.
Definition ts_le (a b : ts) : bool :=
  if epochs a =? epochs b then ticks a <=? ticks b else ticks a <? ticks b.

(** TimeDelta::divideUp, timestamp.h:133-141; [None] is division by zero (undefined). *)
Definition divide_up (num denom : N) : option N :=
  let x := u32 num in
  let y := u32 denom in
  if y =? 0 then None
  else Some (let xy := x / y in if x mod y =? 0 then xy else u32 (xy + 1)).

(** operator/(TimeDelta, TimeDelta), timestamp.h:273-275. *)
Definition td_div (a b : N) : option N := if b =? 0 then None else Some (a / b).

(** TimeDelta(num_units, ticks_per_unit), timestamp.h:129. *)
Definition td_units (num per : N) : N := u64 (num * per).

(** TimeDelta::initStamps, timestamp.cc:82-106: ticks per unit for a tick spacing in
    attoseconds.  Simplified: only the integer constants, not the floating-point inverses. *)
Record units := Units { one_fs : N; one_ps : N; one_ns : N; one_us : N; one_ms : N; one_s : N; one_min : N }.
Definition init_stamps (asec_per_tick : N) : units :=
  let fs := 1000 / asec_per_tick in
  let ps := u64 (1000 * fs) in
  let ns := u64 (1000 * ps) in
  let us := u64 (1000 * ns) in
  let ms := u64 (1000 * us) in
  let s := u64 (1000 * ms) in
  Units fs ps ns us ms s (u64 (60 * s)).

(** Timestamp::usecRounded, timestamp.h:243-245. *)
Definition usec_rounded (u : units) (t : ts) : N := ticks t / one_us u.
