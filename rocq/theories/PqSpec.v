(** Vocabulary for blocking and waking. *)
From Coq Require Import List Arith Bool.
From Verif Require Import PqModel.
Import ListNotations.

(** The items put into queue [c], and the items handed out from it, in order. *)
Definition put_in (c : nat) (l : list act) : list nat :=
  flat_map (fun a => match a with Arrive c' i | Post c' i => if c' =? c then [i] else [] | _ => [] end) l.
Definition handed (c : nat) (l : list out) : list nat :=
  flat_map (fun o => match o with Got _ c' i => if c' =? c then [i] else [] | _ => [] end) l.
(** Threads joined so far. *)
Definition joined (l : list act) (t : nat) : Prop := In (Join t) l.
(** A history in which no thread is joined twice and the active thread only posts items when no thread
    waits for that queue or for any queue. *)
Definition quiet (a : act) (s : pq) : Prop :=
  match a with Post c _ => p_pend s c = [] /\ p_any s = [] | _ => True end.
Inductive good (n : nat) : list act -> pq -> Prop :=
| good_nil : good n [] start
| good_step : forall l s a s', good n l s -> quiet a s -> (forall t, a = Join t -> ~ joined l t) ->
    step n a s = Some s' -> good n (l ++ [a]) s'.
(** The reason a thread continues is the one it waits for. *)
Definition right_reason (b : blk) (why : cause) : Prop :=
  match b, why with
  | WCq _ _, ByItem | WAny _, ByItem => True
  | WCq _ tm, ByTimeout | WAny tm, ByTimeout => tm = true
  | WTimer k, ByTimer k' => k = k'
  | WJoin t, ByJoin t' => t = t'
  | WStart, ByStart => True
  | _, _ => False
  end.
(** The wake-ups under way for a thread. *)
Definition causes (t : nat) (l : list ev) : list cause :=
  flat_map (fun e => match e with Wake t' w => if t' =? t then [w] else [] | Tmo _ _ => [] end) l.
(** No thread uses a timeout. *)
Definition no_timeouts (l : list act) : Prop := forall a, In a l -> match a with Find _ BlockTm | FindAny BlockTm => False | _ => True end.
