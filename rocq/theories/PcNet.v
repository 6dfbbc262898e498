(* The PISCES network as a whole: accounting of credits over all links. *)
From Coq Require Import List ZArith Bool Arith Lia Permutation.
From Verif Require Import PtModel PtProp PcModel PcProof.
Import ListNotations.
Local Open Scope Z_scope.

(* ---------- specification ---------- *)

Definition sender (g : net) (c : nat) : Prop := n_kind g c <> Nic.

(* A network as the constructors build it. *)
Record wired (g : net) : Prop := {
  w_dst : forall c p, sender g c -> (p < n_ports g c)%nat ->
    n_src g (fst (n_dst g c p)) (snd (n_dst g c p)) = Some (c, p) /\ (fst (n_dst g c p) < n_size g)%nat;
  w_src : forall d i c p, n_src g d i = Some (c, p) ->
    sender g c /\ (p < n_ports g c)%nat /\ n_dst g c p = (d, i) /\ (c < n_size g)%nat;
  w_buf : forall c, n_kind g c = Buf -> n_ports g c = 1%nat;
  w_vcs : forall d i c p, n_kind g d = Buf -> n_src g d i = Some (c, p) -> (n_vcs g c <= n_vcs g d)%nat;
  w_cred : forall c p, 0 <= initial g c p < 2 ^ 31
}.

(* Bytes on the way from output p, channel v of c: on the link, held by the component at
   its end, and in credits on their way back. *)
Definition mw (d i v : nat) (x : nat * nat * pkt) : bool :=
  Nat.eqb (fst (fst x)) d && Nat.eqb (snd (fst x)) i && Nat.eqb (p_vc (snd x)) v.
Definition mh (i v : nat) (x : pkt) : bool := Nat.eqb (p_in x) i && Nat.eqb (p_vc x) v.
Definition mc (c p v : nat) (x : nat * nat * nat * Z) : bool :=
  Nat.eqb (fst (fst (fst x))) c && Nat.eqb (snd (fst (fst x))) p && Nat.eqb (snd (fst x)) v.

Definition tot (w : Z -> Z) (g : net) (s : state) (c p v : nat) : Z :=
  let d := fst (n_dst g c p) in let i := snd (n_dst g c p) in
  sum (fun x => if mw d i v x then w (p_bytes (snd x)) else 0) (wires s) +
  sum (fun x => if mh i v x then w (p_bytes x) else 0) (concat (queues (comps s d))) +
  sum (fun x => if mc c p v x then w (snd x) else 0) (cwires s).

Definition idz (z : Z) : Z := z.
Definition one (_ : Z) : Z := 1.

(* ---------- one action ---------- *)

Lemma slot_inj : forall n p v p' v', (v < n)%nat -> (v' < n)%nat -> slot n p v = slot n p' v' -> p = p' /\ v = v'.
Proof.
  unfold slot. intros n p v p' v' H H' E.
  assert (p = p').
  { assert (A : ((p * n + v) / n = p)%nat) by (rewrite Nat.div_add_l, Nat.div_small by lia; lia).
    assert (B : ((p' * n + v') / n = p')%nat) by (rewrite Nat.div_add_l, Nat.div_small by lia; lia).
    rewrite E in A. congruence. }
  subst. split; [reflexivity|lia].
Qed.

Lemma slot_lt : forall n p v ports, (v < n)%nat -> (p < ports)%nat -> (slot n p v < ports * n)%nat.
Proof. unfold slot. intros. nia. Qed.

Section Net.
Variable g : net.
Hypothesis W : wired g.

Lemma dst_inj : forall c p c' p', sender g c -> (p < n_ports g c)%nat -> sender g c' -> (p' < n_ports g c')%nat ->
  n_dst g c p = n_dst g c' p' -> c = c' /\ p = p'.
Proof.
  intros c p c' p' A B A' B' E.
  destruct (w_dst g W c p A B) as [H _]. destruct (w_dst g W c' p' A' B') as [H' _].
  rewrite E in H. rewrite H in H'. injection H' as -> ->. auto.
Qed.

Lemma src_iff : forall c p d i, sender g c -> (p < n_ports g c)%nat ->
  (n_src g d i = Some (c, p) <-> n_dst g c p = (d, i)).
Proof.
  intros c p d i A B. split; intro H.
  - apply (w_src g W d i c p H).
  - destruct (w_dst g W c p A B) as [K _]. rewrite H in K. exact K.
Qed.

(* What o adds to output p, channel v of its sender. *)
Definition goes (u : bool) (p v : nat) (o : pkt) : bool := Nat.eqb (p_out o) p && Nat.eqb (leave_vc u o) v.

Lemma put_tot : forall s c0 st' O I w c p v, sender g c0 ->
  Permutation (O ++ concat (queues st')) (I ++ concat (queues (comps s c0))) ->
  (forall o, In o O -> (p_out o < n_ports g c0)%nat) ->
  sender g c -> (p < n_ports g c)%nat ->
  tot w g (put g s c0 (st', O)) c p v = tot w g s c p v +
    (if Nat.eqb c c0 then sum (fun o => if goes (upd g c0) p v o then w (p_bytes o) else 0) O else 0) +
    (if Nat.eqb (fst (n_dst g c p)) c0
     then sum (fun x => if mh (snd (n_dst g c p)) v x then w (p_bytes x) else 0) I else 0).
Proof.
  intros s c0 st' O I w c p v S0 P OO SC PC. unfold tot, put. cbn [comps wires cwires fst snd].
  set (d := fst (n_dst g c p)). set (i := snd (n_dst g c p)).
  assert (DI : n_dst g c p = (d, i)) by (unfold d, i; destruct (n_dst g c p); reflexivity).
  rewrite !sum_app, sum_map, sum_flat_map.
  assert (A : sum (fun o => if mw d i v (on_wire g c0 o) then w (p_bytes (snd (on_wire g c0 o))) else 0) O =
    if Nat.eqb c c0 then sum (fun o => if goes (upd g c0) p v o then w (p_bytes o) else 0) O else 0).
  { destruct (Nat.eqb_spec c c0) as [->|NE].
    - apply sum_ext. intros o OI. unfold mw, goes, on_wire. cbn [fst snd p_vc p_bytes].
      destruct (Nat.eqb_spec (p_out o) p) as [E|NE].
      + rewrite E, DI. cbn [fst snd]. rewrite !Nat.eqb_refl. reflexivity.
      + destruct (Nat.eqb_spec (fst (n_dst g c0 (p_out o))) d) as [E1|]; [|reflexivity].
        destruct (Nat.eqb_spec (snd (n_dst g c0 (p_out o))) i) as [E2|]; [|reflexivity].
        exfalso. apply NE. apply (dst_inj c0 (p_out o) c0 p); auto.
        rewrite DI. destruct (n_dst g c0 (p_out o)). cbn in *. congruence.
    - apply sum_zero. intros o OI. unfold mw, on_wire. cbn [fst snd p_vc p_bytes].
      destruct (Nat.eqb_spec (fst (n_dst g c0 (p_out o))) d) as [E1|]; [|reflexivity].
      destruct (Nat.eqb_spec (snd (n_dst g c0 (p_out o))) i) as [E2|]; [|reflexivity].
      exfalso. apply NE. apply (dst_inj c p c0 (p_out o)); auto.
      rewrite DI. destruct (n_dst g c0 (p_out o)). cbn in *. congruence. }
  assert (C : sum (fun o => sum (fun x => if mc c p v x then w (snd x) else 0) (on_credit g c0 o)) O =
    if Nat.eqb d c0 then sum (fun x => if mh i v x then w (p_bytes x) else 0) O else 0).
  { assert (K : forall o, n_src g c0 (p_in o) = Some (c, p) <-> d = c0 /\ p_in o = i).
    { intro o. rewrite src_iff by auto. rewrite DI. split; [intro E; injection E; auto|intros [-> ->]; auto]. }
    assert (K1 : forall o, sum (fun x => if mc c p v x then w (snd x) else 0) (on_credit g c0 o) =
      if Nat.eqb d c0 && mh i v o then w (p_bytes o) else 0).
    { intro o. specialize (K o). unfold on_credit.
      destruct (n_src g c0 (p_in o)) as [[c' p']|] eqn:SR.
      - cbn [sum fold_right snd]. unfold mc, mh. cbn [fst snd].
        destruct (Nat.eqb_spec c' c) as [->|N1]; [destruct (Nat.eqb_spec p' p) as [->|N2]|]; cbn [andb].
        + destruct (proj1 K eq_refl) as [E1 E2]. rewrite E1, E2, !Nat.eqb_refl. cbn [andb]. lia.
        + destruct (Nat.eqb_spec d c0) as [ED|]; [|reflexivity].
          destruct (Nat.eqb_spec (p_in o) i) as [EI|]; [|reflexivity].
          exfalso. assert (X : Some (c, p') = Some (c, p)) by (apply K; auto). congruence.
        + destruct (Nat.eqb_spec d c0) as [ED|]; [|reflexivity].
          destruct (Nat.eqb_spec (p_in o) i) as [EI|]; [|reflexivity].
          exfalso. assert (X : Some (c', p') = Some (c, p)) by (apply K; auto). congruence.
      - cbn [sum fold_right]. unfold mh. destruct (Nat.eqb_spec d c0) as [->|]; [|reflexivity].
        destruct (Nat.eqb_spec (p_in o) i) as [E|]; [|reflexivity].
        exfalso. assert (X : None = Some (c, p)) by (apply K; auto). discriminate. }
    rewrite (sum_ext _ _ (fun o => if Nat.eqb d c0 && mh i v o then w (p_bytes o) else 0)) by (intros; apply K1).
    destruct (Nat.eqb d c0); [reflexivity|]. apply sum_zero. reflexivity. }
  rewrite A, C.
  destruct (Nat.eqb_spec d c0) as [->|NE]; [|lia].
  pose proof (sum_perm _ (fun x => if mh i v x then w (p_bytes x) else 0) _ _ P) as SP.
  rewrite !sum_app in SP. lia.
Qed.

Lemma tot_one_zero : forall s c p v, tot one g s c p v = 0 -> tot idz g s c p v = 0.
Proof.
  intros s c p v H. unfold tot in *.
  set (d := fst (n_dst g c p)) in *. set (i := snd (n_dst g c p)) in *.
  assert (Z0 : forall A (b : A -> bool) (f : A -> Z) l, 0 <= sum (fun x => if b x then one (f x) else 0) l /\
    (sum (fun x => if b x then one (f x) else 0) l = 0 -> sum (fun x => if b x then idz (f x) else 0) l = 0)).
  { intros A b f. induction l as [|x l IH]; [split; [reflexivity|reflexivity]|]. rewrite !sum_cons.
    destruct IH as [I1 I2]. unfold one at 1 3. destruct (b x); split; intros; lia. }
  destruct (Z0 _ (mw d i v) (fun x => p_bytes (snd x)) (wires s)) as [A1 A2].
  destruct (Z0 _ (mh i v) p_bytes (concat (queues (comps s d)))) as [B1 B2].
  destruct (Z0 _ (mc c p v) snd (cwires s)) as [C1 C2].
  rewrite A2, B2, C2 by lia. reflexivity.
Qed.

Lemma tot_one_nonneg : forall s c p v, 0 <= tot one g s c p v.
Proof.
  intros. unfold tot. 
  assert (Z0 : forall A (b : A -> bool) (f : A -> Z) l, 0 <= sum (fun x => if b x then one (f x) else 0) l).
  { intros. apply sum_nonneg. intros x _. unfold one. destruct (b x); lia. }
  pose proof (Z0 _ (mw (fst (n_dst g c p)) (snd (n_dst g c p)) v) (fun x => p_bytes (snd x)) (wires s)).
  pose proof (Z0 _ (mh (snd (n_dst g c p)) v) p_bytes (concat (queues (comps s (fst (n_dst g c p)))))).
  pose proof (Z0 _ (mc c p v) snd (cwires s)). lia.
Qed.

(* ---------- the invariant ---------- *)

Definition fits : Prop := forall c p, sender g c -> (p < n_ports g c)%nat -> n_mtu g <= initial g c p.

(* A packet that came to d by its input. *)
Definition came (d : nat) (x : pkt) : Prop :=
  (exists c p, n_src g d (p_in x) = Some (c, p) /\ (p_vc x < n_vcs g c)%nat) /\
  0 <= p_bytes x <= n_mtu g /\
  (sender g d -> (p_out x < n_ports g d)%nat /\ (leave_vc (upd g d) x < n_vcs g d)%nat).

(* cr c p v w: what is missing from the network for output p, channel v of c while an
   input is being handled. *)
Record inv (s : state) (cr : (Z -> Z) -> nat -> nat -> nat -> Z) : Prop := {
  i_fine : forall c, sender g c -> fine (n_vcs g c) (upd g c) (comps s c) /\
    length (queues (comps s c)) = (n_ports g c * n_vcs g c)%nat;
  i_nic : forall c, n_kind g c = Nic -> length (queues (comps s c)) = 1%nat;
  i_wire : forall d i x, In (d, i, x) (wires s) ->
    exists c p, n_src g d i = Some (c, p) /\ (p_vc x < n_vcs g c)%nat /\ 0 <= p_bytes x <= n_mtu g;
  i_held : forall d x, In x (concat (queues (comps s d))) -> came d x;
  i_cwire : forall c p v n, In (c, p, v, n) (cwires s) ->
    sender g c /\ (p < n_ports g c)%nat /\ (v < n_vcs g c)%nat /\ 0 <= n;
  i_cons : forall c p v, sender g c -> (p < n_ports g c)%nat -> (v < n_vcs g c)%nat ->
    credit_of (comps s c) (slot (n_vcs g c) p v) + tot idz g s c p v + cr idz c p v = initial g c p;
  i_live : fits -> forall c p v, sender g c -> (p < n_ports g c)%nat -> (v < n_vcs g c)%nat ->
    queue_of (comps s c) (slot (n_vcs g c) p v) <> [] -> 0 < tot one g s c p v + cr one c p v
}.

Definition none (_ : Z -> Z) (_ _ _ : nat) : Z := 0.

(* What handling packet list I (now at c0) or a credit for c0 stands for. *)
Definition owed (c0 : nat) (I : list pkt) (cin : option (nat * Z)) (w : Z -> Z) (c p v : nat) : Z :=
  (if Nat.eqb (fst (n_dst g c p)) c0
   then sum (fun x => if mh (snd (n_dst g c p)) v x then w (p_bytes x) else 0) I else 0) +
  (if Nat.eqb c c0 then match cin with
                        | Some (s0, n) => if Nat.eqb (slot (n_vcs g c) p v) s0 then w n else 0
                        | None => 0 end else 0).

Lemma concat_in_perm : forall (O I q q' : list pkt) x, Permutation (O ++ q') (I ++ q) ->
  In x q' \/ In x O -> In x I \/ In x q.
Proof.
  intros O I q q' x P H.
  assert (K : In x (I ++ q)) by (rewrite <- P; apply in_app_iff; tauto). apply in_app_iff, K.
Qed.

Lemma inv_put : forall s c0 I cin st' O, sender g c0 -> inv s (owed c0 I cin) ->
  (forall x, In x I -> p_in x = 0%nat /\ n_src g c0 0 = None /\ In x O /\ 0 <= p_bytes x <= n_mtu g /\
     (p_out x < n_ports g c0)%nat /\ (leave_vc (upd g c0) x < n_vcs g c0)%nat \/ came c0 x) ->
  (forall x, In x I -> ~ came c0 x -> Permutation (O ++ concat (queues st')) (I ++ concat (queues (comps s c0))) ->
     ~ In x (concat (queues st'))) ->
  acts (n_vcs g c0) (upd g c0) (comps s c0) I cin st' O ->
  inv (put g s c0 (st', O)) none.
Proof.
  intros s c0 I cin st' O S0 V IN NI A.
  destruct V as [VF VN VW VH VC VS VL]. destruct (VF c0 S0) as [F0 L0].
  pose proof (a_perm _ _ _ _ _ _ _ A) as AP.
  assert (OK : forall o, In o O -> (p_out o < n_ports g c0)%nat /\ (leave_vc (upd g c0) o < n_vcs g c0)%nat /\
      0 <= p_bytes o <= n_mtu g).
  { intros o OI. destruct (concat_in_perm O I _ _ o AP (or_intror OI)) as [K|K].
    - destruct (IN o K) as [[_ [_ [_ [B [C D]]]]]|[_ [B C]]]; [auto|].
      destruct (C S0). auto.
    - destruct (VH c0 o K) as [_ [B C]]. destruct (C S0). auto. }
  assert (TT : forall w c p v, sender g c -> (p < n_ports g c)%nat -> tot w g (put g s c0 (st', O)) c p v =
     tot w g s c p v +
    (if Nat.eqb c c0 then sum (fun o => if goes (upd g c0) p v o then w (p_bytes o) else 0) O else 0) +
    (if Nat.eqb (fst (n_dst g c p)) c0
     then sum (fun x => if mh (snd (n_dst g c p)) v x then w (p_bytes x) else 0) I else 0)).
  { intros w c p v SC PC. apply put_tot; auto. intros o OI. apply (OK o OI). }
  assert (QO : forall c, c <> c0 -> comps (put g s c0 (st', O)) c = comps s c).
  { intros c N. cbn. destruct (Nat.eqb_spec c c0); [contradiction|reflexivity]. }
  assert (Q0 : comps (put g s c0 (st', O)) c0 = st') by (cbn; rewrite Nat.eqb_refl; reflexivity).
  assert (SL : forall p v o, (p < n_ports g c0)%nat -> (v < n_vcs g c0)%nat -> In o O ->
     goes (upd g c0) p v o = Nat.eqb (where_ (n_vcs g c0) (upd g c0) o) (slot (n_vcs g c0) p v)).
  { intros p v o PP VV OI. destruct (OK o OI) as [B [C _]]. unfold goes, where_.
    destruct (Nat.eqb_spec (slot (n_vcs g c0) (p_out o) (leave_vc (upd g c0) o)) (slot (n_vcs g c0) p v)) as [E|N].
    - destruct (slot_inj _ _ _ _ _ C VV E) as [-> ->]. rewrite !Nat.eqb_refl. reflexivity.
    - destruct (Nat.eqb_spec (p_out o) p); [|reflexivity].
      destruct (Nat.eqb_spec (leave_vc (upd g c0) o) v); [|reflexivity]. exfalso. apply N. congruence. }
  assert (CONS : forall c p v, sender g c -> (p < n_ports g c)%nat -> (v < n_vcs g c)%nat ->
    credit_of (comps (put g s c0 (st', O)) c) (slot (n_vcs g c) p v) +
    tot idz g (put g s c0 (st', O)) c p v + none idz c p v = initial g c p).
  { intros c p v SC PC HV. rewrite TT by auto. specialize (VS c p v SC PC HV). unfold owed in VS.
    unfold none. destruct (Nat.eqb_spec c c0) as [->|N].
    - rewrite Q0, (a_cred _ _ _ _ _ _ _ A).
      rewrite (sum_ext _ (in_slot (n_vcs g c0) (upd g c0) (slot (n_vcs g c0) p v))
                 (fun o => if goes (upd g c0) p v o then idz (p_bytes o) else 0)).
      + unfold cin_at. destruct cin as [[s0 n]|]; [|lia].
        destruct (slot (n_vcs g c0) p v =? s0)%nat; unfold idz in *; lia.
      + intros o OI. rewrite (SL p v o PC HV OI). reflexivity.
    - rewrite (QO c N). lia. }
  split.
  - intros c SC. destruct (Nat.eq_dec c c0) as [->|N].
    + rewrite Q0. split; [apply (acts_fine _ _ _ _ _ _ _ F0 A)|].
      rewrite (a_lenq _ _ _ _ _ _ _ A). exact L0.
    + rewrite (QO c N). apply VF, SC.
  - intros c KN. destruct (Nat.eq_dec c c0) as [->|N]; [contradiction|].
    rewrite (QO c N). apply VN, KN.
  - intros d i x X. cbn in X. apply in_app_iff in X. destruct X as [X|X]; [apply (VW d i x X)|].
    apply in_map_iff in X. destruct X as [o [E OI]]. destruct (OK o OI) as [B [C D]].
    unfold on_wire in E. injection E as E <-. cbn [p_vc p_bytes].
    destruct (w_dst g W c0 (p_out o) S0 B) as [K _]. rewrite E in K. cbn in K.
    exists c0, (p_out o). auto.
  - intros d x X. destruct (Nat.eq_dec d c0) as [->|N]; [|rewrite (QO d N) in X; apply VH, X].
    rewrite Q0 in X. destruct (concat_in_perm O I _ _ x AP (or_introl X)) as [K|K]; [|apply VH, K].
    destruct (IN x K) as [H|H]; [|exact H].
    exfalso. destruct H as [E1 [E2 _]]. apply (NI x K); auto. intros [[c [p [E _]]] _].
    rewrite E1, E2 in E. discriminate.
  - intros c p v n X. cbn in X. apply in_app_iff in X. destruct X as [X|X]; [apply VC, X|].
    apply in_flat_map in X. destruct X as [o [OI X]]. unfold on_credit in X.
    destruct (n_src g c0 (p_in o)) as [[c' p']|] eqn:SR; [|destruct X].
    destruct X as [X|[]]. injection X as -> -> <- <-.
    destruct (w_src g W _ _ _ _ SR) as [B [C _]]. destruct (OK o OI) as [_ [_ D]].
    split; [exact B|]. split; [exact C|]. split; [|lia].
    assert (CO : came c0 o).
    { destruct (concat_in_perm O I _ _ o AP (or_intror OI)) as [K|K]; [|apply VH, K].
      destruct (IN o K) as [[E1 [E2 _]]|H]; [|exact H]. rewrite E1, E2 in SR. discriminate. }
    destruct CO as [[c2 [p2 [K1 K2]]] _]. rewrite SR in K1. injection K1 as <- <-. exact K2.
  - exact CONS.
  - intros FI c p v SC PC HV Q. unfold none.
    pose proof (tot_one_nonneg s c p v) as TN.
    assert (IP : 0 <= if Nat.eqb (fst (n_dst g c p)) c0
     then sum (fun x => if mh (snd (n_dst g c p)) v x then one (p_bytes x) else 0) I else 0).
    { match goal with |- context [Nat.eqb ?a ?b] => destruct (Nat.eqb a b) end; [|lia]. apply sum_nonneg. intros x _. unfold one. destruct (mh _ _ x); lia. }
    destruct (Z.eq_dec (tot one g (put g s c0 (st', O)) c p v) 0) as [T0|]; [|pose proof (tot_one_nonneg (put g s c0 (st', O)) c p v); lia].
    exfalso. pose proof (CONS c p v SC PC HV) as CE. rewrite (tot_one_zero _ _ _ _ T0) in CE. unfold none in CE.
    rewrite (TT one c p v SC PC) in T0.
    specialize (VL FI c p v SC PC HV). unfold owed in VL. pose proof (w_cred g W c p) as WC.
    destruct (Nat.eqb_spec c c0) as [->|N].
    + rewrite Q0 in Q, CE.
      destruct (a_live _ _ _ _ _ _ _ A (slot (n_vcs g c0) p v)) as [H|[[o [OI H]]|[[x [X H]]|[H1 H2]]]].
      * contradiction.
      * assert (SP : forall x, In x O -> 0 <= (if goes (upd g c0) p v x then one (p_bytes x) else 0)).
        { intros x _. unfold one. destruct (goes _ _ _ x); lia. }
        pose proof (sum_in_le _ (fun o => if goes (upd g c0) p v o then one (p_bytes o) else 0) O o SP OI) as SI.
        cbn beta in SI. rewrite (SL p v o PC HV OI), H, Nat.eqb_refl in SI.
        change (one (p_bytes o)) with 1 in SI. lia.
      * rewrite u32_small in H by lia.
        assert (XB : 0 <= p_bytes x <= n_mtu g).
        { assert (X' : In x (concat (queues st'))).
          { apply in_concat_nth. exists (slot (n_vcs g c0) p v). split; [|exact X].
            rewrite (a_lenq _ _ _ _ _ _ _ A), L0. apply slot_lt; auto. }
          destruct (concat_in_perm O I _ _ x AP (or_introl X')) as [K|K].
          - destruct (IN x K) as [[_ [_ [_ [B _]]]]|[_ [B _]]]; exact B.
          - apply (VH c0 x K). }
        specialize (FI c0 p SC PC). lia.
      * rewrite H1 in Q. specialize (VL Q).
        assert (SP : 0 <= sum (fun o => if goes (upd g c0) p v o then one (p_bytes o) else 0) O).
        { apply sum_nonneg. intros x _. unfold one. destruct (goes _ _ _ x); lia. }
        destruct cin as [[s0 n]|]; [|lia].
        destruct (Nat.eqb_spec (slot (n_vcs g c0) p v) s0) as [<-|]; [|lia].
        apply (H2 n eq_refl).
    + rewrite (QO c N) in Q. specialize (VL Q). lia.
Qed.

Lemma tot_wire : forall w s k d i x c p v, nth_error (wires s) k = Some (d, i, x) ->
  tot w g s c p v = tot w g {| comps := comps s; wires := remove_at k (wires s); cwires := cwires s |} c p v +
    (if mw (fst (n_dst g c p)) (snd (n_dst g c p)) v (d, i, x) then w (p_bytes x) else 0).
Proof.
  intros w s k d i x c p v E. unfold tot. cbn [comps wires cwires].
  rewrite (sum_remove _ (fun x => if mw (fst (n_dst g c p)) (snd (n_dst g c p)) v x then w (p_bytes (snd x)) else 0) _ _ _ E).
  cbn [snd]. lia.
Qed.

Lemma tot_cwire : forall w s k c1 p1 v1 n c p v, nth_error (cwires s) k = Some (c1, p1, v1, n) ->
  tot w g s c p v = tot w g {| comps := comps s; wires := wires s; cwires := remove_at k (cwires s) |} c p v +
    (if mc c p v (c1, p1, v1, n) then w n else 0).
Proof.
  intros w s k c1 p1 v1 n c p v E. unfold tot. cbn [comps wires cwires].
  rewrite (sum_remove _ (fun x => if mc c p v x then w (snd x) else 0) _ _ _ E). cbn [snd]. lia.
Qed.

Lemma in_remove_at : forall A k (l : list A) x, In x (remove_at k l) -> In x l.
Proof.
  induction k; intros [|y l] x I; cbn in *; auto. destruct I as [->|I]; auto.
Qed.

Lemma inv_take_wire : forall s k d i x x1, inv s none -> nth_error (wires s) k = Some (d, i, x) ->
  p_in x1 = i -> p_vc x1 = p_vc x -> p_bytes x1 = p_bytes x ->
  inv {| comps := comps s; wires := remove_at k (wires s); cwires := cwires s |} (owed d [x1] None).
Proof.
  intros s k d i x x1 V E EI EV EB.
  assert (OW : forall w c p v, owed d [x1] None w c p v =
    if mw (fst (n_dst g c p)) (snd (n_dst g c p)) v (d, i, x) then w (p_bytes x) else 0).
  { intros w c p v. unfold owed, mw, mh. cbn [sum fold_right fst snd]. rewrite EI, EV, EB.
    rewrite (Nat.eqb_sym d). destruct (Nat.eqb (fst (n_dst g c p)) d); cbn [andb]; destruct (Nat.eqb c d);
      destruct (Nat.eqb i (snd (n_dst g c p))); destruct (Nat.eqb (p_vc x) v); cbn [andb]; lia. }
  destruct V as [VF VN VW VH VC VS VL]. split; auto.
  - intros d' i' x' X. apply VW. cbn in X. apply (in_remove_at _ k). exact X.
  - intros c p v SC PC HV. specialize (VS c p v SC PC HV). rewrite (tot_wire idz _ _ _ _ _ c p v E) in VS.
    rewrite OW. unfold none in VS. cbn [comps]. lia.
  - intros FI c p v SC PC HV Q. specialize (VL FI c p v SC PC HV Q).
    rewrite (tot_wire one _ _ _ _ _ c p v E) in VL. rewrite OW. unfold none in VL. lia.
Qed.

Lemma inv_take_cwire : forall s k c1 p1 v1 n, inv s none -> nth_error (cwires s) k = Some (c1, p1, v1, n) ->
  inv {| comps := comps s; wires := wires s; cwires := remove_at k (cwires s) |}
      (owed c1 [] (Some (slot (n_vcs g c1) p1 v1, n))).
Proof.
  intros s k c1 p1 v1 n V E. destruct V as [VF VN VW VH VC VS VL].
  destruct (VC c1 p1 v1 n) as [S1 [P1 [V1 N1]]]; [eapply nth_error_In, E|].
  assert (OW : forall w c p v, (v < n_vcs g c)%nat -> owed c1 [] (Some (slot (n_vcs g c1) p1 v1, n)) w c p v =
    if mc c p v (c1, p1, v1, n) then w n else 0).
  { intros w c p v HV. unfold owed, mc. cbn [sum fold_right fst snd].
    rewrite (Nat.eqb_sym c). destruct (Nat.eqb_spec c1 c) as [<-|NE]; cbn [andb].
    - replace (if (fst (n_dst g c1 p) =? c1)%nat then 0 else 0) with 0 by (match goal with |- context [Nat.eqb ?a ?b] => destruct (Nat.eqb a b) end; reflexivity).
      destruct (Nat.eqb_spec (slot (n_vcs g c1) p v) (slot (n_vcs g c1) p1 v1)) as [ES|NS].
      + destruct (slot_inj _ _ _ _ _ HV V1 ES) as [-> ->]. rewrite !Nat.eqb_refl. cbn [andb]. lia.
      + destruct (Nat.eqb_spec p1 p) as [->|]; [|reflexivity].
        destruct (Nat.eqb_spec v1 v) as [->|]; [contradiction|reflexivity].
    - match goal with |- context [Nat.eqb ?a ?b] => destruct (Nat.eqb a b) end; reflexivity. }
  split; auto.
  - intros c p v m X. apply VC. cbn in X. apply (in_remove_at _ k), X.
  - intros c p v SC PC HV. specialize (VS c p v SC PC HV). rewrite (tot_cwire idz _ _ _ _ _ _ c p v E) in VS.
    rewrite OW by exact HV. unfold none in VS. cbn [comps]. lia.
  - intros FI c p v SC PC HV Q. specialize (VL FI c p v SC PC HV Q).
    rewrite (tot_cwire one _ _ _ _ _ _ c p v E) in VL. rewrite OW by exact HV. unfold none in VL. lia.
Qed.

(* The queue of a network interface changes. *)
Lemma inv_nic : forall s cr c0 st' I extra, n_kind g c0 = Nic -> inv s cr ->
  length (queues st') = 1%nat ->
  Permutation (extra ++ concat (queues st')) (I ++ concat (queues (comps s c0))) ->
  (forall x, In x I -> came c0 x) ->
  (forall w c p v, sender g c -> (p < n_ports g c)%nat -> (v < n_vcs g c)%nat -> cr w c p v = owed c0 I None w c p v) ->
  inv {| comps := fun x => if Nat.eqb x c0 then st' else comps s x; wires := wires s;
         cwires := cwires s ++ flat_map (on_credit g c0) extra |} none.
Proof.
  intros s cr c0 st' I extra KN V L1 P CI CR. destruct V as [VF VN VW VH VC VS VL].
  assert (NS : forall c, sender g c -> c <> c0) by (intros c H ->; contradiction).
  assert (EX : forall x, In x extra -> came c0 x).
  { intros x X. destruct (concat_in_perm extra I _ _ x P (or_intror X)) as [K|K]; auto. }
  assert (TT : forall w c p v, sender g c -> (p < n_ports g c)%nat ->
    tot w g {| comps := fun x => if Nat.eqb x c0 then st' else comps s x; wires := wires s;
               cwires := cwires s ++ flat_map (on_credit g c0) extra |} c p v =
    tot w g s c p v + owed c0 I None w c p v).
  { intros w c p v SC PC. unfold tot, owed. cbn [comps wires cwires].
    set (d := fst (n_dst g c p)). set (i := snd (n_dst g c p)).
    assert (DI : n_dst g c p = (d, i)) by (unfold d, i; destruct (n_dst g c p); reflexivity).
    rewrite sum_app, sum_flat_map.
    assert (C : sum (fun o => sum (fun x => if mc c p v x then w (snd x) else 0) (on_credit g c0 o)) extra =
      if Nat.eqb d c0 then sum (fun x => if mh i v x then w (p_bytes x) else 0) extra else 0).
    { rewrite (sum_ext _ _ (fun o => if Nat.eqb d c0 && mh i v o then w (p_bytes o) else 0)).
      - destruct (Nat.eqb d c0); [reflexivity|]. apply sum_zero. reflexivity.
      - intros o OI. destruct (EX o OI) as [[c2 [p2 [SR _]]] _]. unfold on_credit. rewrite SR.
        cbn [sum fold_right snd]. unfold mc, mh. cbn [fst snd].
        destruct (w_src g W _ _ _ _ SR) as [B1 [B2 [B3 _]]].
        destruct (Nat.eqb_spec d c0) as [ED|ND]; cbn [andb].
        + destruct (Nat.eqb_spec (p_in o) i) as [EI|NI]; cbn [andb].
          * assert (X : c2 = c /\ p2 = p) by (apply dst_inj; auto; congruence). destruct X as [-> ->].
            rewrite !Nat.eqb_refl. cbn [andb]. lia.
          * destruct (Nat.eqb_spec c2 c) as [->|]; [|reflexivity].
            destruct (Nat.eqb_spec p2 p) as [->|]; [|reflexivity]. exfalso. congruence.
        + destruct (Nat.eqb_spec c2 c) as [->|]; [|reflexivity].
          destruct (Nat.eqb_spec p2 p) as [->|]; [|reflexivity]. exfalso. congruence. }
    rewrite C. destruct (Nat.eqb_spec c c0) as [->|_]; [contradiction|].
    destruct (Nat.eqb_spec d c0) as [ED|_]; [|lia].
    pose proof (sum_perm _ (fun x => if mh i v x then w (p_bytes x) else 0) _ _ P) as SP.
    rewrite !sum_app in SP. rewrite ED. lia. }
  assert (QO : forall c, sender g c -> (if Nat.eqb c c0 then st' else comps s c) = comps s c).
  { intros c SC. destruct (Nat.eqb_spec c c0); [exfalso; apply (NS c); auto|reflexivity]. }
  split; cbn [comps wires cwires].
  - intros c SC. rewrite QO by exact SC. apply VF, SC.
  - intros c K. destruct (Nat.eqb c c0); auto.
  - exact VW.
  - intros d x X. destruct (Nat.eqb_spec d c0) as [->|]; [|apply VH, X].
    destruct (concat_in_perm extra I _ _ x P (or_introl X)) as [K|K]; auto.
  - intros c p v n X. apply in_app_iff in X. destruct X as [X|X]; [apply VC, X|].
    apply in_flat_map in X. destruct X as [o [OI X]]. unfold on_credit in X.
    destruct (EX o OI) as [[c2 [p2 [SR HV]]] [B _]]. rewrite SR in X. destruct X as [X|[]].
    injection X as <- <- <- <-. destruct (w_src g W _ _ _ _ SR) as [B1 [B2 _]].
    split; [exact B1|]. split; [exact B2|]. split; [exact HV|lia].
  - intros c p v SC PC HV. rewrite QO, TT by auto. specialize (VS c p v SC PC HV).
    rewrite (CR idz c p v SC PC HV) in VS. unfold none. lia.
  - intros FI c p v SC PC HV. rewrite QO, TT by auto. intro Q. specialize (VL FI c p v SC PC HV Q).
    rewrite (CR one c p v SC PC HV) in VL. unfold none. lia.
Qed.

Lemma queues_one : forall st q, length (queues st) = 1%nat ->
  concat (queues (set_queue st 0 q)) = q /\ concat (queues st) = queue_of st 0.
Proof.
  intros st q L. unfold set_queue, queue_of. cbn [queues]. destruct (queues st) as [|a [|b l]]; try discriminate.
  cbn. rewrite !app_nil_r. auto.
Qed.

Lemma step_inv : forall s e s', inv s none -> gstep g s e = Some s' -> inv s' none.
Proof.
  intros s e s' V E. destruct e as [k out v|k|c k|c id bytes]; cbn [gstep] in E.
  - destruct (nth_error (wires s) k) as [[[d i] x]|] eqn:NE; [|discriminate].
    destruct (i_wire _ _ V d i x) as [c [p [SR [HV HB]]]]; [eapply nth_error_In, NE|].
    destruct (n_kind g d) eqn:KD.
    + destruct (Nat.ltb_spec out (n_ports g d)); [|discriminate].
      destruct (Nat.ltb_spec v (n_vcs g d)); [|discriminate]. cbn [andb] in E. injection E as <-.
      assert (SD : sender g d) by (unfold sender; congruence).
      assert (UP : upd g d = true) by (unfold upd; rewrite KD; reflexivity).
      set (x1 := {| p_id := p_id x; p_bytes := p_bytes x; p_vc := p_vc x; p_next := v; p_in := i; p_out := out |}).
      pose proof (inv_take_wire s k d i x x1 V NE eq_refl eq_refl eq_refl) as V1.
      assert (CA : came d x1).
      { split; [exists c, p; auto|]. split; [exact HB|]. intros _. split; [auto|]. rewrite UP. auto. }
      destruct (xbar_payload (n_vcs g d) true (comps s d) x1) as [st' O] eqn:XP.
      destruct (i_fine _ _ V d SD) as [F L].
      apply (inv_put _ d [x1] None st' O SD V1).
      * intros y [<-|[]]. right. exact CA.
      * intros y [<-|[]] N. contradiction.
      * rewrite UP in *. apply take_payload_acts; [exact F| |exact XP].
        cbn [comps]. rewrite L. apply slot_lt; auto.
    + injection E as <-.
      assert (SD : sender g d) by (unfold sender; congruence).
      assert (UP : upd g d = false) by (unfold upd; rewrite KD; reflexivity).
      set (x1 := {| p_id := p_id x; p_bytes := p_bytes x; p_vc := p_vc x; p_next := p_next x; p_in := i; p_out := 0%nat |}).
      pose proof (inv_take_wire s k d i x x1 V NE eq_refl eq_refl eq_refl) as V1.
      pose proof (w_buf g W d KD) as PB. pose proof (w_vcs g W d i c p KD SR) as VB.
      assert (CA : came d x1).
      { split; [exists c, p; auto|]. split; [exact HB|]. intros _. rewrite UP, PB. cbn. lia. }
      destruct (buf_payload (comps s d) x1) as [st' O] eqn:XP.
      destruct (i_fine _ _ V d SD) as [F L].
      apply (inv_put _ d [x1] None st' O SD V1).
      * intros y [<-|[]]. right. exact CA.
      * intros y [<-|[]] N. contradiction.
      * rewrite UP in *. apply take_payload_acts; [exact F| |].
        -- cbn [comps]. rewrite L. apply slot_lt; [cbn; lia|cbn; lia].
        -- cbn [comps]. exact XP.
    + injection E as <-.
      set (x1 := {| p_id := p_id x; p_bytes := p_bytes x; p_vc := p_vc x; p_next := p_next x; p_in := i; p_out := 0%nat |}).
      pose proof (inv_take_wire s k d i x x1 V NE eq_refl eq_refl eq_refl) as V1.
      pose proof (i_nic _ _ V d KD) as L1.
      destruct (queues_one (comps s d) (queue_of (comps s d) 0 ++ [x1]) L1) as [Q1 Q2].
      unfold put. cbn [fst snd map wires comps cwires]. rewrite (app_nil_r (remove_at k (wires s))).
      refine (inv_nic _ _ d (set_queue (comps s d) 0 (queue_of (comps s d) 0 ++ [x1])) [x1] [] KD V1 _ _ _ _).
      * cbn. rewrite set_nth_length. exact L1.
      * cbn [comps app]. rewrite Q1, Q2. symmetry. apply Permutation_cons_append.
      * intros y [<-|[]]. split; [exists c, p; auto|]. split; [exact HB|]. intro H. contradiction.
      * reflexivity.
  - destruct (nth_error (cwires s) k) as [[[[c p] v] n]|] eqn:NE; [|discriminate].
    destruct (i_cwire _ _ V c p v n) as [SC [PC [HV HN]]]; [eapply nth_error_In, NE|].
    destruct (i_fine _ _ V c SC) as [F L].
    pose proof (inv_take_cwire s k c p v n V NE) as V1.
    destruct (n_kind g c) eqn:KC; [| |contradiction]; injection E as <-.
    + assert (UP : upd g c = true) by (unfold upd; rewrite KC; reflexivity).
      destruct (xbar_credit (n_vcs g c) (comps s c) p v n) as [st' O] eqn:XP.
      apply (inv_put _ c [] (Some (slot (n_vcs g c) p v, n)) st' O SC V1); [intros y []|intros y []|].
      rewrite UP in *. apply (xbar_credit_acts _ _ _ _ _ _ _ F HN); [|exact XP].
      cbn [comps]. rewrite L. apply slot_lt; auto.
    + assert (UP : upd g c = false) by (unfold upd; rewrite KC; reflexivity).
      pose proof (w_buf g W c KC) as PB. assert (p = 0%nat) by lia. subst p.
      change (slot (n_vcs g c) 0 v) with v in V1.
      destruct (buf_credit (comps s c) v n) as [st' O] eqn:XP.
      apply (inv_put _ c [] (Some (v, n)) st' O SC V1); [intros y []|intros y []|].
      rewrite UP in *. apply (buf_credit_acts _ _ _ _ _ _ F HN); [|exact XP].
      cbn [comps]. rewrite L. apply (slot_lt (n_vcs g c) 0 v); auto.
  - destruct (n_kind g c) eqn:KC; try discriminate.
    destruct (nth_error (queue_of (comps s c) 0) k) as [x|] eqn:NE; [|discriminate]. injection E as <-.
    pose proof (i_nic _ _ V c KC) as L1.
    destruct (queues_one (comps s c) (remove_at k (queue_of (comps s c) 0)) L1) as [Q1 Q2].
    assert (X : flat_map (on_credit g c) [x] = on_credit g c x) by (cbn; apply app_nil_r).
    rewrite <- X.
    refine (inv_nic _ _ c (set_queue (comps s c) 0 (remove_at k (queue_of (comps s c) 0))) [] [x] KC V _ _ _ _).
    + cbn. rewrite set_nth_length. exact L1.
    + cbn [app]. rewrite Q1, Q2. symmetry. apply perm_remove_at, NE.
    + intros y [].
    + intros w c' p v SC PC HV. unfold none, owed. cbn [sum fold_right].
      repeat match goal with |- context [Nat.eqb ?a ?b] => destruct (Nat.eqb a b) end; reflexivity.
  - destruct (n_kind g c) eqn:KC; try discriminate.
    destruct (n_src g c 0) as [|] eqn:SR; [discriminate|].
    destruct ((0 <=? bytes) && (bytes <=? n_mtu g) && (c <? n_size g)%nat && (0 <? n_vcs g c)%nat && (0 <? n_ports g c)%nat) eqn:B; [|discriminate].
    repeat (apply andb_prop in B; destruct B as [B ?]). injection E as <-.
    assert (SC : sender g c) by (unfold sender; congruence).
    assert (UP : upd g c = false) by (unfold upd; rewrite KC; reflexivity).
    apply Z.leb_le in B. repeat match goal with H : (_ <=? _) = true |- _ => apply Z.leb_le in H
      | H : (_ <? _)%nat = true |- _ => apply Nat.ltb_lt in H end.
    set (x := {| p_id := id; p_bytes := bytes; p_vc := 0%nat; p_next := 0%nat; p_in := 0%nat; p_out := 0%nat |}).
    destruct (inject_one (n_mtu g) (comps s c) x) as [st' O] eqn:XP.
    destruct (i_fine _ _ V c SC) as [F L]. rewrite UP in F.
    destruct (inject_acts (n_vcs g c) (n_mtu g) (comps s c) x st' O F) as [A OO]; auto.
    { rewrite L. cbn [p_vc x]. apply (slot_lt (n_vcs g c) 0 0); auto. }
    assert (V1 : inv s (owed c O None)).
    { destruct V as [VF VN VW VH VC VS VL].
      assert (OW : forall w c' p v, sender g c' -> (p < n_ports g c')%nat -> owed c O None w c' p v = 0).
      { intros w c' p v SC' PC'. unfold owed.
        replace (if (c' =? c)%nat then 0 else 0) with 0 by (match goal with |- context [Nat.eqb ?a ?b] => destruct (Nat.eqb a b) end; reflexivity).
        destruct (Nat.eqb_spec (fst (n_dst g c' p)) c) as [ED|]; [|reflexivity].
        rewrite sum_zero; [reflexivity|]. intros y Y.
        assert (y = x) by (destruct OO as [-> | ->]; [destruct Y as [<-|[]]; reflexivity|destruct Y]). subst y.
        unfold mh. cbn [p_in x]. destruct (Nat.eqb_spec 0 (snd (n_dst g c' p))) as [EI|]; [|reflexivity].
        exfalso. destruct (w_dst g W c' p SC' PC') as [K _]. rewrite ED, <- EI, SR in K. discriminate. }
      split; auto.
      - intros c' p v SC' PC' HV'. rewrite OW by auto. specialize (VS c' p v SC' PC' HV'). exact VS.
      - intros FI c' p v SC' PC' HV' Q. rewrite OW by auto. apply (VL FI c' p v SC' PC' HV' Q). }
    apply (inv_put s c O None st' O SC V1).
    + intros y Y. left.
      assert (y = x) by (destruct OO as [-> | ->]; [destruct Y as [<-|[]]; reflexivity|destruct Y]). subst y.
      rewrite UP. cbn. repeat split; auto; lia.
    + intros y Y NC P K. apply NC. apply Permutation_app_inv_l in P. rewrite P in K. apply (i_held _ _ V), K.
    + rewrite UP. exact A.
Qed.

Lemma concat_repeat_nil : forall n, concat (repeat (@nil pkt) n) = [].
Proof. induction n; cbn; auto. Qed.

Lemma nth_repeat_nil : forall n s, nth s (repeat (@nil pkt) n) [] = [].
Proof. induction n; destruct s; cbn; auto. Qed.

Lemma nth_credits : forall n (f : nat -> Z) ports p v a, (v < n)%nat -> (p < ports)%nat ->
  nth (slot n p v) (flat_map (fun p => repeat (f p) n) (seq a ports)) 0 = f (a + p)%nat.
Proof.
  intros n f ports p v a HV. revert p a. induction ports as [|ports IH]; intros p a PL; [lia|].
  cbn [seq flat_map]. unfold slot in *. destruct p as [|p].
  - cbn [Nat.mul Nat.add]. rewrite app_nth1 by (rewrite repeat_length; exact HV).
    rewrite Nat.add_0_r. clear IH PL. generalize (f a). revert v HV. induction n as [|n IH]; intros v HV z; [lia|].
    destruct v; cbn; [reflexivity|]. apply IH. lia.
  - rewrite app_nth2 by (rewrite repeat_length; nia). rewrite repeat_length.
    replace (S p * n + v - n)%nat with (p * n + v)%nat by nia. rewrite IH by lia.
    f_equal. lia.
Qed.

Lemma init_inv : inv (init g) none.
Proof.
  assert (IC : forall c, sender g c -> init_comp g c =
    {| credits := flat_map (fun p => repeat (initial g c p) (n_vcs g c)) (seq 0 (n_ports g c));
       queues := repeat [] (n_ports g c * n_vcs g c) |}).
  { intros c SC. unfold init_comp, sender in *. destruct (n_kind g c); [reflexivity|reflexivity|contradiction]. }
  assert (HE : forall d, concat (queues (init_comp g d)) = []).
  { intro d. unfold init_comp. destruct (n_kind g d); cbn; auto; apply concat_repeat_nil. }
  assert (T0 : forall w c p v, tot w g (init g) c p v = 0).
  { intros. unfold tot, init. cbn [wires cwires comps]. rewrite HE. reflexivity. }
  split; cbn [comps wires cwires init].
  - intros c SC. rewrite (IC c SC). cbn [queues credits]. rewrite repeat_length. split; [|reflexivity]. split.
    + cbn [credits queues]. rewrite repeat_length. generalize 0%nat.
      induction (n_ports g c); intro a; cbn [seq flat_map Nat.mul]; [reflexivity|].
      rewrite app_length, repeat_length, IHn. reflexivity.
    + intros s x X. unfold queue_of in X. cbn in X. rewrite nth_repeat_nil in X. destruct X.
    + intro s. unfold credit_of. cbn [credits].
      destruct (nth_in_or_default s (flat_map (fun p => repeat (initial g c p) (n_vcs g c)) (seq 0 (n_ports g c))) 0) as [H| ->]; [|lia].
      apply in_flat_map in H. destruct H as [p [_ H]]. apply repeat_spec in H. rewrite H. apply (w_cred g W).
  - intros c K. unfold init_comp. rewrite K. reflexivity.
  - intros d i x [].
  - intros d x X. rewrite HE in X. destruct X.
  - intros c p v n [].
  - intros c p v SC PC HV. rewrite T0. unfold none. rewrite (IC c SC). unfold credit_of. cbn [credits].
    rewrite nth_credits by auto. cbn. lia.
  - intros _ c p v SC PC HV Q. exfalso. apply Q. rewrite (IC c SC). unfold queue_of. cbn [queues].
    apply nth_repeat_nil.
Qed.

Lemma run_inv : forall es s s', inv s none -> run g s es = Some s' -> inv s' none.
Proof.
  induction es as [|e es IH]; intros s s' V E; cbn [run] in E; [injection E as <-; exact V|].
  destruct (gstep g s e) as [s1|] eqn:G; [|discriminate]. apply (IH s1 s'); [|exact E].
  apply (step_inv s e s1 V G).
Qed.

Theorem reach_inv : forall es s, run g (init g) es = Some s -> inv s none.
Proof. intros es s E. apply (run_inv es (init g) s init_inv E). Qed.
End Net.
