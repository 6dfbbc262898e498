(** Model of two statistics: the time-quanta calendar output (sstmac/common/stats/ftq.cc,
    ftq.h) and the histogram (sstmac/common/stats/stat_histogram.h).
    uint64_t is nat without overflow. Text formatting is not modelled. *)
From Coq Require Import List Arith Bool QArith Qround ZArith.
Import ListNotations.
Local Open Scope nat_scope.

(** ** Calendars *)

(** FTQCalendar::Event, ftq.h:101-109. *)
Record fev := Fev { fty : nat; fstart : nat; flen : nat }.
Definition fstop (e : fev) : nat := fstart e + flen e.

(** FTQCalendar::addData_impl, ftq.cc:194-201. *)
Definition add_data (cal : list fev) (ty b n : nat) : list fev :=
  if n =? 0 then cal else cal ++ [Fev ty b n].

(** FTQCalendar::maxTick, ftq.h:144-151. *)
Definition max_tick (cal : list fev) : nat :=
  match cal with [] => 0 | _ => fstop (last cal (Fev 0 0 0)) end.

(** FTQCalendar::padToMaxTick, ftq.cc:176-192. [inact] is the id of the Inactive tag. *)
Definition pad (inact mt : nat) (cal : list fev) : list fev :=
  add_data cal inact (max_tick cal) (mt - max_tick cal).

(** dump, ftq.cc:266-273. *)
Definition all_ticks (cals : list (list fev)) : nat := fold_left Nat.max (map max_tick cals) 0.
Definition padded (inact : nat) (cals : list (list fev)) : list (list fev) :=
  map (pad inact (all_ticks cals)) cals.

(** eventsUsed, ftq.cc:199 and 272, for one bit. The code keeps a bit mask computed with
    the int expression 1<<typeid, which is this for typeid < 31. *)
Definition used (evs : list fev) (ty : nat) : bool := existsb (fun e => fty e =? ty) evs.

(** dense_index, ftq.cc:286-292: the used types before [ty]. *)
Definition dense (evs : list fev) (ty : nat) : nat := length (filter (used evs) (seq 0 ty)).
(** sparse_index, ftq.cc:286-292, and num_event_types. The number of types k is the 64
    of ftq.cc:282-286, kept as a parameter. *)
Definition sparse (k : nat) (evs : list fev) : list nat := filter (used evs) (seq 0 k).

(** num_epochs, ftq.cc:274-278. *)
Definition num_epochs (T mt : nat) : nat := if mt mod T =? 0 then mt / T else S (mt / T).

(** EpochList, ftq.h:193-207: operator() then "+= x"; None when outside the vector. *)
Fixpoint bump (arr : list nat) (i x : nat) : option (list nat) :=
  match arr, i with
  | [], _ => None
  | y :: r, O => Some (y + x :: r)
  | y :: r, S i' => match bump r i' x with Some r' => Some (y :: r') | None => None end
  end.

Definition bump_ep (ncols col : nat) (arr : list nat) (ep x : nat) : option (list nat) :=
  bump arr (ep * ncols + col) x.

(** The loop ftq.cc:315-317. *)
Fixpoint bump_all (ncols col x : nat) (eps : list nat) (arr : list nat) : option (list nat) :=
  match eps with
  | [] => Some arr
  | ep :: r => match bump_ep ncols col arr ep x with Some a => bump_all ncols col x r a | None => None end
  end.

(** One event, ftq.cc:304-318. *)
Definition add_event (T ncols col scale : nat) (arr : list nat) (e : fev) : option (list nat) :=
  let s := fstart e / T in
  let t := fstop e / T in
  if s =? t then bump_ep ncols col arr s (flen e)
  else
    match bump_ep ncols col arr s (((s + 1) * T - fstart e) * scale) with
    | Some a =>
        match bump_ep ncols col a t ((fstop e - t * T) * scale) with
        | Some b => bump_all ncols col (T * scale) (seq (s + 1) (t - (s + 1))) b
        | None => None
        end
    | None => None
    end.

Fixpoint add_events (T ncols : nat) (col scale : fev -> nat) (arr : list nat) (evs : list fev) : option (list nat) :=
  match evs with
  | [] => Some arr
  | e :: r => match add_event T ncols (col e) (scale e) arr e with
              | Some a => add_events T ncols col scale a r
              | None => None
              end
  end.

(** The epoch table of dump, ftq.cc:265-320. *)
Definition table (ntypes : nat) (mean : bool) (T inact : nat) (cals : list (list fev)) : option (list nat) :=
  let evs := concat (padded inact cals) in
  let ncols := if mean then 1 else length (sparse ntypes evs) in
  add_events T ncols (fun e => if mean then 0 else dense evs (fty e)) (fun e => if mean then fty e else 1)
             (repeat 0 (ncols * num_epochs T (all_ticks cals))) evs.

(** ** Histograms *)

(** Constructor, stat_histogram.h:74-95, for BinType = double, taken as exact rationals;
    [None]: abort. *)
Definition bin_size (mn mx : Q) (nbins : positive) : option Q :=
  let b := ((mx - mn) / inject_Z (Zpos nbins))%Q in
  if Qeq_bool b 0 then None else Some b.

(** addData_impl, stat_histogram.h:98-107. [tr] is log10 or the identity. *)
Definition add_sample (tr : Q -> Q) (mn mx b : Q) (counts : list nat) (s : Q * nat) : option (list nat) :=
  let v := tr (fst s) in
  if negb (Qle_bool v mx) then Some counts
  else if negb (Qle_bool mn v) then Some counts
  else bump counts (Z.to_nat (Qfloor ((v - mn) / b))) (snd s).

Fixpoint add_samples (tr : Q -> Q) (mn mx b : Q) (counts : list nat) (l : list (Q * nat)) : option (list nat) :=
  match l with
  | [] => Some counts
  | s :: r => match add_sample tr mn mx b counts s with Some c => add_samples tr mn mx b c r | None => None end
  end.

(** The same for BinType = uint32_t or uint64_t: integer divisions at 82 and 105. *)
Definition bin_size_int (mn mx nbins : nat) : nat := (mx - mn) / nbins.

Definition add_sample_int (mn mx b : nat) (counts : list nat) (s : nat * nat) : option (list nat) :=
  let v := fst s in
  if mx <? v then Some counts
  else if v <? mn then Some counts
  else bump counts ((v - mn) / b) (snd s).

Fixpoint add_samples_int (mn mx b : nat) (counts : list nat) (l : list (nat * nat)) : option (list nat) :=
  match l with
  | [] => Some counts
  | s :: r => match add_sample_int mn mx b counts s with Some c => add_samples_int mn mx b c r | None => None end
  end.
