(** Following a packet through a network given by its connection lists.  Used for the
    topologies other than the torus (whose file has its own copy of the walk).
    Simplified: the network is a graph; timing, buffers and credits are elsewhere. *)
From Coq Require Import List ZArith Arith Bool.
From Verif Require Import TorusModel.
Import ListNotations.

(** The switch at the far end of the cable on an output port, read off the list that
    Topology::connectedOutports returns (topology.h:341; Interconnect::connectSwitches,
    interconnect.cc:518-580 wires exactly these). *)
Definition far_end (conns : nat -> list conn) (n s port : nat) : option nat :=
  match find (fun c => c_outport c =? port) (conns s) with
  | Some c => if ((0 <=? c_dst c) && (c_dst c <? Z.of_nat n))%Z then Some (Z.to_nat (c_dst c)) else None
  | None => None
  end.

(** Forward hop by hop until ejected: channels used, final switch, ejection port. *)
Fixpoint gwalk {H} (next : nat -> nat -> option nat) (route : nat -> H -> outcome H) (fuel s : nat) (h : H)
  : option (list chan * nat * nat) :=
  match fuel with
  | 0 => None
  | S f =>
      match route s h with
      | Eject p => Some ([], s, p)
      | Abort => None
      | Forward p vc h' =>
          match next s p with
          | None => None
          | Some s' =>
              match gwalk next route f s' h' with
              | Some (tr, e, p') => Some (Chan s p vc :: tr, e, p')
              | None => None
              end
          end
      end
  end.
