(* Examples for the theorems of SpProp.v *)
From Coq Require Import List ZArith Bool Arith Lia Permutation.
From Verif Require Import PtModel SpModel SpSpec SpProof SpArb SpWrr SpOrder SpProp.
Import ListNotations.
Local Open Scope Z_scope.


(* Two lanes; the first one waits for credits while the second one sends. *)
Definition ex_es : list (Z * nat * sev) :=
  [(1, 0%nat, Try (pk 0 0 8)); (2, 0%nat, Try (pk 1 0 8)); (3, 0%nat, Try (pk 2 1 4)); (10, 0%nat, Arb);
   (15, 0%nat, Credit 0 8); (16, 0%nat, Try (pk 3 0 8))].
Definition ex_lanes : list (sel * Z * Z * Z) := [(BwMin, 2, 0, 10); (BwMax, 3, 0, 10)].

Example ex_sane : sane 2 ex_es /\ (forall c, In c (lane_credits ex_lanes) -> 0 <= c) /\ start wrr_arb (wrr_init 1 ex_lanes) [10; 10].
Proof.
  split; [repeat constructor; cbn; lia|]. split; [|exact (start_wrr 1 ex_lanes)].
  cbn. intros c [<-|[<-|[]]]; lia.
Qed.

Example ex_fifo_run :
  option_map (fun '(t, o) => (t, sends o, o_sched o, o_total o))
    (port_run fifo_arb (fun b => b) 1 true 0 (port_init fifo_arb (fifo_init [10; 10])) ex_es) =
  Some (16, [(1, pk 0 0 8); (10, pk 2 1 4); (15, pk 1 0 8)], Some 24, 1).
Proof. vm_compute. reflexivity. Qed.

Example ex_wrr_run :
  option_map (fun '(t, o) => (t, sends o, o_active o, o_idle o))
    (port_run wrr_arb (fun b => b) 1 true 0 (port_init wrr_arb (wrr_init 1 ex_lanes)) ex_es) =
  Some (16, [(1, pk 0 0 8); (10, pk 2 1 4); (15, pk 1 0 8)], 20, 1).
Proof. vm_compute. reflexivity. Qed.

(* The lane-0 packets sent are a proper prefix of those tried. *)
Example ex_wrr_prefix :
  option_map (fun '(t, o) => on 0 (sent o))
    (port_run wrr_arb (fun b => b) 1 true 0 (port_init wrr_arb (wrr_init 1 ex_lanes)) ex_es) = Some [pk 0 0 8; pk 1 0 8] /\
  on 0 (tried ex_es) = [pk 0 0 8; pk 1 0 8; pk 3 0 8].
Proof. split; vm_compute; reflexivity. Qed.

(* Packets of one size, one of them waiting for credits, then for none *)
Example ex_fifo_order :
  option_map (fun '(t, o) => (t, on 0 (sent o), o_sched o, o_stall o))
    (port_run fifo_arb (fun b => b) 1 true 0 (port_init fifo_arb (fifo_init [10; 10]))
      (ex_es ++ [(24, 0%nat, Arb); (30, 0%nat, Credit 0 8)])) = Some (30, on 0 (tried ex_es), None, 6) /\
  (forall p, In p (tried ex_es) -> s_bytes p = if Nat.eqb (s_lane p) 0 then 8 else 4).
Proof.
  split; [vm_compute; reflexivity|]. cbn. intros p [<-|[<-|[<-|[<-|[]]]]]; reflexivity.
Qed.
