(* Properties of link arbitration: C42. *)
From Coq Require Import List ZArith Bool Arith Lia.
From Verif Require Import AbModel.
Import ListNotations.
Local Open Scope Z_scope.

(* ---------- specification ---------- *)

(* The link is used from u_from to u_to. *)
Record use : Type := { u_from : Z; u_to : Z }.

(* Each arrival gets its own interval, as long as its bytes need, not before it arrives, and
   as soon as the link is free. *)
Inductive serial (bd : Z) : Z -> list arrival -> list use -> Prop :=
| serial_nil : forall free, serial bd free [] []
| serial_cons : forall free a l u us,
    u_from u = Z.max free (a_now a) -> u_to u = u_from u + a_bytes a * bd ->
    serial bd (u_to u) l us -> serial bd free (a :: l) (u :: us).

(* The consequence the property speaks of *)
Definition exclusive (bd : Z) (l : list arrival) (us : list use) : Prop :=
  length us = length l /\
  (forall i a u, nth_error l i = Some a -> nth_error us i = Some u ->
     a_now a <= u_from u /\ u_to u - u_from u = a_bytes a * bd) /\
  (forall i j u w, (i < j)%nat -> nth_error us i = Some u -> nth_error us j = Some w -> u_to u <= u_from w).

Lemma serial_from : forall bd, 0 <= bd -> forall free l us, serial bd free l us ->
  (forall a, In a l -> 0 <= a_bytes a) -> forall j w, nth_error us j = Some w -> free <= u_from w /\ u_from w <= u_to w.
Proof.
  intros bd B free l us S. induction S as [|free a l u us E1 E2 S IH]; intros P j w N; [destruct j; discriminate|].
  assert (0 <= a_bytes a * bd) by (apply Z.mul_nonneg_nonneg; [apply P; left; reflexivity|lia]).
  destruct j as [|j]; cbn [nth_error] in N.
  - injection N as <-. lia.
  - destruct (IH ltac:(intros; apply P; right; assumption) j w N). lia.
Qed.

Lemma serial_exclusive : forall bd, 0 <= bd -> forall free l us, serial bd free l us ->
  (forall a, In a l -> 0 <= a_bytes a) -> exclusive bd l us.
Proof.
  intros bd B free l us S. induction S as [|free a l u us E1 E2 S IH]; intro P.
  - split; [reflexivity|]. split; [intros i a u N; destruct i; discriminate|intros i j u w _ N; destruct i; discriminate].
  - destruct IH as [I1 [I2 I3]]; [intros; apply P; right; assumption|]. split; [cbn; lia|]. split.
    + intros [|i] x y N1 N2; cbn [nth_error] in *; [injection N1 as <-; injection N2 as <-; lia|apply (I2 i x y N1 N2)].
    + intros [|i] [|j] x y L N1 N2; cbn [nth_error] in *; try lia.
      * injection N1 as <-. apply (serial_from bd B _ l us S ltac:(intros; apply P; right; assumption) j y N2).
      * apply (I3 i j x y); auto. lia.
Qed.

(* ---------- store and forward ---------- *)

(* The interval of a store-and-forward grant ends when the packet leaves. *)
Definition stored (bd : Z) (l : list arrival) (gs : list grant) : list use :=
  map (fun p => {| u_from := g_tail (snd p) - a_bytes (fst p) * bd; u_to := g_tail (snd p) |}) (combine l gs).

Lemma simple_serial : forall bd l nf, serial bd nf l (stored bd l (simple_run bd nf l)).
Proof.
  intros bd. induction l as [|a l IH]; intro nf; [constructor|].
  cbn [simple_run simple stored combine map fst snd g_tail].
  set (start := if nf <? a_now a then a_now a else nf).
  assert (E : start = Z.max nf (a_now a)) by (unfold start; destruct (Z.ltb_spec nf (a_now a)); lia).
  constructor; cbn [u_from u_to]; [lia|lia|apply IH].
Qed.

Theorem simple_arbitrator_exclusive : forall bd l, 0 <= bd -> (forall a, In a l -> 0 <= a_bytes a) ->
  exclusive bd l (stored bd l (simple_run bd 0 l)) /\ serial bd 0 l (stored bd l (simple_run bd 0 l)).
Proof.
  intros bd l B P. split; [|apply simple_serial]. apply (serial_exclusive bd B 0); [apply simple_serial|exact P].
Qed.
Print Assumptions simple_arbitrator_exclusive.

Definition a1 : arrival := {| a_now := 3; a_bytes := 5; a_delay := 0 |}.
Definition a2 : arrival := {| a_now := 4; a_bytes := 6; a_delay := 1 |}.
Definition a3 : arrival := {| a_now := 90; a_bytes := 2; a_delay := 1 |}.

Example simple_three : stored 2 [a1; a2; a3] (simple_run 2 0 [a1; a2; a3]) =
  [{| u_from := 3; u_to := 13 |}; {| u_from := 13; u_to := 25 |}; {| u_from := 90; u_to := 94 |}] /\
  exclusive 2 [a1; a2; a3] (stored 2 [a1; a2; a3] (simple_run 2 0 [a1; a2; a3])).
Proof.
  split; [reflexivity|]. apply simple_arbitrator_exclusive; [lia|].
  intros a [<-|[<-|[<-|[]]]]; cbn; lia.
Qed.

(* ---------- no congestion ---------- *)

(* The null arbitrator does not serialise: it models links without congestion. *)
Theorem null_arbitrator_refuted : exists bd l, 0 < bd /\ (forall a, In a l -> 0 < a_bytes a) /\
  ~ exclusive bd l (map (fun g => {| u_from := g_head g; u_to := g_tail g |}) (map (null bd) l)).
Proof.
  exists 2, [a1; a2]. split; [lia|]. split; [intros a [<-|[<-|[]]]; cbn; lia|].
  intros [_ [_ H]]. specialize (H 0%nat 1%nat {| u_from := 3; u_to := 13 |} {| u_from := 4; u_to := 16 |}
    ltac:(lia) eq_refl eq_refl). cbn in H. lia.
Qed.
Print Assumptions null_arbitrator_refuted.

(* ---------- cut-through ---------- *)

Definition cut_uses (gs : list grant) : list use := map (fun g => {| u_from := g_head g; u_to := g_tail g |}) gs.

(* Packets that arrive at least as fast as they leave, of 3 bytes or more: the arbitrator is
   exclusive. *)
Definition quick (cl : Z) (a : arrival) : Prop := a_delay a <= cl /\ 2 < a_bytes a < full.

Lemma cut_quick : forall cl fuel s n a, quick cl a -> 0 < cl -> (0 < fuel)%nat ->
  let h := Z.max s (a_now a) in
  cut_through fuel cl [{| e_start := s; e_cycles := n |}] a =
  Some ([{| e_start := h + a_bytes a * cl; e_cycles := full - a_bytes a |}],
        {| g_head := h; g_tail := h + a_bytes a * cl; g_delay := ((h + a_bytes a * cl - h) mod 2 ^ 64) / a_bytes a |}).
Proof.
  intros cl fuel s n a [Q1 Q2] C F h. destruct fuel as [|f]; [lia|]. unfold cut_through.
  assert (E : clear_out cl (a_now a) [{| e_start := s; e_cycles := n |}] = [{| e_start := h; e_cycles := full |}]).
  { cbn [clear_out e_start e_cycles]. unfold h. destruct (Z.leb_spec (a_now a) s).
    - rewrite Z.max_l by lia. reflexivity.
    - rewrite Z.max_r by lia. destruct (a_now a <? s + n * cl); reflexivity. }
  rewrite E. cbn [cut_loop e_start e_cycles].
  destruct (Z.leb_spec (a_bytes a) 2); [lia|]. destruct (Z.leb_spec (a_delay a) cl); [|lia].
  destruct (Z.leb_spec full (a_bytes a)); [lia|]. cbn [app e_start]. reflexivity.
Qed.

Lemma cut_serial : forall cl fuel, 0 < cl -> (0 < fuel)%nat -> forall l s n,
  (forall a, In a l -> quick cl a) ->
  exists s' gs, cut_run fuel cl [{| e_start := s; e_cycles := n |}] l = Some (s', gs) /\
  serial cl s l (cut_uses gs).
Proof.
  intros cl fuel C F. induction l as [|a l IH]; intros s n Q.
  - eexists _, []. split; [reflexivity|constructor].
  - cbn [cut_run]. rewrite (cut_quick cl fuel s n a (Q a (or_introl eq_refl)) C F).
    destruct (IH (Z.max s (a_now a) + a_bytes a * cl) (full - a_bytes a)) as [s' [gs [E S]]];
      [intros; apply Q; right; assumption|].
    rewrite E. eexists _, _. split; [reflexivity|]. cbn [cut_uses map g_head g_tail]. constructor; cbn [u_from u_to]; auto.
Qed.

Theorem cut_through_exclusive_partial : forall cl fuel l, 0 < cl -> (0 < fuel)%nat ->
  (forall a, In a l -> quick cl a) ->
  exists s gs, cut_run fuel cl cut_init l = Some (s, gs) /\ exclusive cl l (cut_uses gs) /\ serial cl 0 l (cut_uses gs).
Proof.
  intros cl fuel l C F Q. destruct (cut_serial cl fuel C F l 0 full Q) as [s [gs [E S]]].
  exists s, gs. split; [exact E|]. split; [|exact S].
  apply (serial_exclusive cl ltac:(lia) 0 l _ S). intros a A. destruct (Q a A). lia.
Qed.
Print Assumptions cut_through_exclusive_partial.

Example cut_two : exists s gs, cut_run 1 2 cut_init [a1; a2] = Some (s, gs) /\
  cut_uses gs = [{| u_from := 3; u_to := 13 |}; {| u_from := 13; u_to := 25 |}] /\ exclusive 2 [a1; a2] (cut_uses gs).
Proof.
  destruct (cut_through_exclusive_partial 2 1 [a1; a2]) as [s [gs [E [X _]]]]; [lia|lia| |].
  - intros a [<-|[<-|[]]]; unfold quick, full; cbn; lia.
  - exists s, gs. split; [exact E|]. split; [|exact X]. vm_compute in E. injection E as <- <-. reflexivity.
Qed.

(* A packet of 2 bytes leaves at time 0, before it came, with an absurd delay per byte. *)
Theorem cut_through_small_refuted : exists cl a s gs, 0 < cl /\ 0 < a_bytes a /\ 0 < a_now a /\
  cut_run 9 cl cut_init [a] = Some (s, gs) /\
  map g_tail gs = [0] /\ map g_delay gs = [(2 ^ 64 - a_now a) / a_bytes a].
Proof.
  exists 4, {| a_now := 6; a_bytes := 2; a_delay := 0 |}. eexists _, _.
  split; [lia|]. split; [cbn; lia|]. split; [cbn; lia|]. split; [vm_compute; reflexivity|]. split; reflexivity.
Qed.
Print Assumptions cut_through_small_refuted.

(* Packets that arrive more slowly than they leave: 11 bytes pass in the time of 10. *)
Theorem cut_through_bandwidth_refuted : exists cl l s gs T, 0 < cl /\
  (forall a, In a l -> 2 < a_bytes a /\ 0 <= a_now a) /\
  cut_run 9 cl cut_init l = Some (s, gs) /\ (forall g, In g gs -> g_tail g <= T) /\
  T < cl * fold_right Z.add 0 (map a_bytes l).
Proof.
  exists 4, [{| a_now := 0; a_bytes := 5; a_delay := 8 |}; {| a_now := 3; a_bytes := 6; a_delay := 4 |}].
  eexists _, _, 40. split; [lia|]. split; [intros a [<-|[<-|[]]]; cbn; lia|].
  split; [vm_compute; reflexivity|]. split; [intros g [<-|[<-|[]]]; cbn; lia|cbn; lia].
Qed.
Print Assumptions cut_through_bandwidth_refuted.

(* A packet can leave before its last bytes have arrived. *)
Theorem cut_through_early_refuted : exists cl l s gs a g, 0 < cl /\
  cut_run 9 cl cut_init l = Some (s, gs) /\ In (a, g) (combine l gs) /\ 2 < a_bytes a /\
  g_tail g < a_now a + (a_bytes a - 1) * a_delay a.
Proof.
  exists 3, [{| a_now := 4; a_bytes := 8; a_delay := 6 |}; {| a_now := 6; a_bytes := 5; a_delay := 8 |}].
  eexists _, _, {| a_now := 6; a_bytes := 5; a_delay := 8 |}, _.
  split; [lia|]. split; [vm_compute; reflexivity|]. split; [right; left; reflexivity|]. split; cbn; lia.
Qed.
Print Assumptions cut_through_early_refuted.
