(* What is asked of the SNAPPR output port, in terms of what it is given and what it
   sends. *)
From Coq Require Import List ZArith Bool Arith.
From Verif Require Import SpModel.
Import ListNotations.
Local Open Scope Z_scope.

Definition bsum (l : list spkt) : Z := fold_right (fun p s => s_bytes p + s) 0 l.
(* The packets of one lane *)
Definition on (l : nat) (ps : list spkt) : list spkt := filter (fun p => Nat.eqb (s_lane p) l) ps.

(* Packets given to the port, in order; credits given for a lane *)
Definition tried (es : list (Z * nat * sev)) : list spkt :=
  flat_map (fun x => match snd x with Try p => [p] | _ => [] end) es.
Definition credited (l : nat) (es : list (Z * nat * sev)) : Z :=
  fold_right (fun x s => match snd x with
                         | Credit m n => (if Nat.eqb m l then n else 0) + s
                         | _ => s
                         end) 0 es.
(* Packets the port has sent, in order, with the times *)
Definition sends {A} (o : port A) : list (Z * spkt) := rev (o_sent o).
Definition sent {A} (o : port A) : list spkt := map snd (sends o).

(* Events of a port with n lanes *)
Definition sane_ev (n : nat) (e : sev) : Prop :=
  match e with
  | Try p => (s_lane p < n)%nat /\ 0 <= s_bytes p
  | Credit l c => (l < n)%nat /\ 0 <= c
  | Arb => True
  end.
Definition sane (n : nat) (es : list (Z * nat * sev)) : Prop := Forall (fun x => sane_ev n (snd x)) es.

Inductive subseq {X} : list X -> list X -> Prop :=
| sub_nil : forall l, subseq [] l
| sub_take : forall x l m, subseq l m -> subseq (x :: l) (x :: m)
| sub_skip : forall x l m, subseq l m -> subseq l (x :: m).

(* Each transmission ends before the next one begins. *)
Definition spaced (tts : Z -> Z) (flit : Z) (l : list (Z * spkt)) : Prop :=
  forall a x y b, l = a ++ x :: y :: b -> fst x + tts (s_bytes (snd x)) + flit <= fst y.

(* The time within a run during which packets wait at the port although it is not
   transmitting *)
Fixpoint waited {A} (tts : Z -> Z) (flit : Z) (flow : bool) (now : Z) (o : port A)
    (es : list (Z * nat * sev)) : Z :=
  match es with
  | [] => 0
  | (t, tie, e) :: r =>
    (if o_total o =? 0 then 0 else Z.max 0 (t - Z.max now (o_free o))) +
    match port_step A tts flit flow t tie e o with
    | Some o1 => waited tts flit flow t o1 r
    | None => 0
    end
  end.
