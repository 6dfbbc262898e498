(* Properties of the PISCES credit network: C39, C40, C89. *)
From Coq Require Import List ZArith Bool Arith Lia Permutation.
From Verif Require Import PtModel PtProp PcModel PcProof PcNet PcDeliver.
Import ListNotations.
Local Open Scope Z_scope.

(* ---------- specification ---------- *)

(* The packets that left output p, channel v of c and are still on the link, *)
Definition on_link (g : net) (s : state) (c p v : nat) : list Z :=
  map (fun x => p_bytes (snd x))
    (filter (fun x => Nat.eqb (fst (fst x)) (fst (n_dst g c p)) &&
                      Nat.eqb (snd (fst x)) (snd (n_dst g c p)) && Nat.eqb (p_vc (snd x)) v) (wires s)).
(* those the component at the end of the link holds, *)
Definition buffered (g : net) (s : state) (c p v : nat) : list Z :=
  map p_bytes
    (filter (fun x => Nat.eqb (p_in x) (snd (n_dst g c p)) && Nat.eqb (p_vc x) v)
      (concat (queues (comps s (fst (n_dst g c p)))))).
(* and the credits on their way back to c. *)
Definition returning (s : state) (c p v : nat) : list Z :=
  map snd (filter (fun x => Nat.eqb (fst (fst (fst x))) c && Nat.eqb (snd (fst (fst x))) p &&
                            Nat.eqb (snd (fst x)) v) (cwires s)).
Definition outstanding (g : net) (s : state) (c p v : nat) : list Z :=
  on_link g s c p v ++ buffered g s c p v ++ returning s c p v.

Definition total (l : list Z) : Z := fold_right Z.add 0 l.

(* The output port p of the component c exists. *)
Definition output (g : net) (c p v : nat) : Prop :=
  n_kind g c <> Nic /\ (p < n_ports g c)%nat /\ (v < n_vcs g c)%nat.

(* What PiscesSwitch's constructor checks, pisces_switch.cc:147-149. *)
Definition accepted (g : net) : Prop :=
  forall c p, n_kind g c <> Nic -> (p < n_ports g c)%nat -> n_mtu g <= n_credits g c p.
(* What would be needed: a packet fits the credits of one virtual channel. *)
Definition roomy (g : net) : Prop :=
  forall c p, n_kind g c <> Nic -> (p < n_ports g c)%nat ->
  n_mtu g <= n_credits g c p / Z.of_nat (n_vcs g c).

(* ---------- the two forms of the sums ---------- *)

Lemma total_filter : forall A (b : A -> bool) (f : A -> Z) l,
  total (map f (filter b l)) = sum (fun x => if b x then idz (f x) else 0) l.
Proof.
  intros A b f. induction l as [|x l IH]; [reflexivity|]. rewrite sum_cons, <- IH. cbn [filter].
  destruct (b x); reflexivity.
Qed.

Lemma length_filter : forall A (b : A -> bool) (f : A -> Z) l,
  Z.of_nat (length (map f (filter b l))) = sum (fun x => if b x then one (f x) else 0) l.
Proof.
  intros A b f. induction l as [|x l IH]; [reflexivity|]. rewrite sum_cons, <- IH. cbn [filter].
  destruct (b x); cbn [map length]; unfold one; lia.
Qed.

Lemma total_app : forall l m, total (l ++ m) = total l + total m.
Proof.
  induction l as [|x l IH]; intro m; [reflexivity|].
  change (x + total (l ++ m) = x + total l + total m). rewrite IH. lia.
Qed.

Lemma total_outstanding : forall g s c p v, total (outstanding g s c p v) = tot idz g s c p v.
Proof.
  intros. unfold outstanding, on_link, buffered, returning, tot. rewrite !total_app, !total_filter.
  unfold mw, mh, mc. lia.
Qed.

Lemma length_outstanding : forall g s c p v, Z.of_nat (length (outstanding g s c p v)) = tot one g s c p v.
Proof.
  intros. unfold outstanding, on_link, buffered, returning, tot. rewrite !app_length, !Nat2Z.inj_add.
  rewrite (length_filter _ _ (fun x => p_bytes (snd x))), !length_filter. unfold mw, mh, mc. lia.
Qed.

Lemma total_nonneg : forall l, (forall x, In x l -> 0 <= x) -> 0 <= total l.
Proof.
  induction l as [|x l IH]; intro H; [reflexivity|]. cbn [total fold_right]. fold (total l).
  assert (0 <= x) by (apply H; left; reflexivity).
  assert (0 <= total l) by (apply IH; intros; apply H; right; assumption). lia.
Qed.

(* ---------- C39 ---------- *)

Theorem credits_conserved : forall g, wired g -> forall es s, run g (init g) es = Some s ->
  forall c p v, output g c p v ->
  credit_of (comps s c) (slot (n_vcs g c) p v) + total (outstanding g s c p v) = n_credits g c p / Z.of_nat (n_vcs g c) /\
  0 <= credit_of (comps s c) (slot (n_vcs g c) p v).
Proof.
  intros g W es s E c p v [SC [PC HV]]. pose proof (reach_inv g W es s E) as V.
  split; [|apply (f_pos _ _ _ (proj1 (i_fine _ _ _ V c SC)))].
  rewrite total_outstanding. pose proof (i_cons _ _ _ V c p v SC PC HV) as K. unfold none in K.
  unfold initial in K. lia.
Qed.
Print Assumptions credits_conserved.

(* What is on the link and in the buffer behind it never exceeds the size of that buffer. *)
Theorem receiver_never_overrun : forall g, wired g -> forall es s, run g (init g) es = Some s ->
  forall c p v, output g c p v ->
  total (on_link g s c p v) + total (buffered g s c p v) <= n_credits g c p / Z.of_nat (n_vcs g c).
Proof.
  intros g W es s E c p v O. destruct (credits_conserved g W es s E c p v O) as [A B].
  unfold outstanding in A. rewrite !total_app in A.
  pose proof (reach_inv g W es s E) as V.
  assert (0 <= total (returning s c p v)).
  { apply total_nonneg. intros x X. unfold returning in X. apply in_map_iff in X.
    destruct X as [[[[c1 p1] v1] n] [<- X]]. apply filter_In in X. destruct X as [X _].
    apply (i_cwire _ _ _ V _ _ _ _ X). }
  lia.
Qed.
Print Assumptions receiver_never_overrun.

(* ---------- C40 ---------- *)

Theorem queued_means_busy_partial : forall g, wired g -> roomy g -> forall es s, run g (init g) es = Some s ->
  forall c p v, output g c p v -> queue_of (comps s c) (slot (n_vcs g c) p v) <> [] ->
  outstanding g s c p v <> [].
Proof.
  intros g W R es s E c p v [SC [PC HV]] Q O. pose proof (reach_inv g W es s E) as V.
  pose proof (i_live _ _ _ V R c p v SC PC HV Q) as K. unfold none in K.
  rewrite <- length_outstanding, O in K. cbn in K. lia.
Qed.
Print Assumptions queued_means_busy_partial.

(* ---------- C89 ---------- *)

Theorem packets_neither_lost_nor_copied : forall g, wired g -> forall es s, run g (init g) es = Some s ->
  Permutation (history entered g (init g) es) (history left_ g (init g) es ++ inside g s).
Proof. exact packets_balance. Qed.
Print Assumptions packets_neither_lost_nor_copied.

(* Wherever a packet may be, the router has an output of a lower rank for it. *)
Definition can_route (rank : nat -> nat -> nat -> nat) (g : net) : Prop :=
  forall d i c p v, n_src g d i = Some (c, p) -> (v < n_vcs g c)%nat ->
  match n_kind g d with
  | Xbar => exists out v', (out < n_ports g d)%nat /\ (v' < n_vcs g d)%nat /\ (rank d out v' < rank c p v)%nat
  | Buf => (rank d 0 v < rank c p v)%nat
  | Nic => True
  end.

(* Nothing but an injection can happen. *)
Definition at_rest (rank : nat -> nat -> nat -> nat) (g : net) (s : state) : Prop :=
  forall e, obeys rank g s e -> (forall c id b, e <> EInj c id b) -> gstep g s e = None.

Theorem at_rest_all_delivered : forall g rank, wired g -> roomy g -> can_route rank g ->
  forall es s, all_obey rank g (init g) es -> run g (init g) es = Some s -> at_rest rank g s ->
  Permutation (history entered g (init g) es) (history left_ g (init g) es).
Proof.
  intros g rank W R CR es s OB E AR.
  destruct (run_ranked g W rank es (init g) s (init_inv g W) (init_ranked g rank) OB E) as [RK V].
  assert (CE : cwires s = []).
  { destruct (cwires s) as [|[[[c p] v] n] l] eqn:C; [reflexivity|]. exfalso.
    pose proof (AR (ECred 0) I ltac:(discriminate)) as K. cbn [gstep] in K. rewrite C in K. cbn [nth_error] in K.
    destruct (i_cwire _ _ _ V c p v n) as [SC _]; [rewrite C; left; reflexivity|].
    unfold sender in SC. destruct (n_kind g c); [discriminate|discriminate|contradiction]. }
  assert (WE : wires s = []).
  { destruct (wires s) as [|[[d i] x] l] eqn:C; [reflexivity|]. exfalso.
    destruct (i_wire _ _ _ V d i x) as [c [p [SR [HV HB]]]]; [rewrite C; left; reflexivity|].
    pose proof (CR d i c p (p_vc x) SR HV) as K.
    destruct (n_kind g d) eqn:KD.
    - destruct K as [out [v' [K1 [K2 K3]]]].
      assert (A : gstep g s (EPay 0 out v') = None).
      { apply AR; [|discriminate]. cbn [obeys]. rewrite C. cbn [nth_error]. intros c1 p1 S1. rewrite KD.
        rewrite SR in S1. injection S1 as <- <-. exact K3. }
      cbn [gstep] in A. rewrite C in A. cbn [nth_error] in A. rewrite KD in A.
      apply Nat.ltb_lt in K1, K2. rewrite K1, K2 in A. discriminate.
    - assert (A : gstep g s (EPay 0 0 0) = None).
      { apply AR; [|discriminate]. cbn [obeys]. rewrite C. cbn [nth_error]. intros c1 p1 S1. rewrite KD.
        rewrite SR in S1. injection S1 as <- <-. exact K. }
      cbn [gstep] in A. rewrite C in A. cbn [nth_error] in A. rewrite KD in A. discriminate.
    - assert (A : gstep g s (EPay 0 0 0) = None).
      { apply AR; [|discriminate]. cbn [obeys]. rewrite C. cbn [nth_error]. intros. rewrite KD. exact I. }
      cbn [gstep] in A. rewrite C in A. cbn [nth_error] in A. rewrite KD in A. discriminate. }
  assert (NE : forall c, n_kind g c = Nic -> queue_of (comps s c) 0 = []).
  { intros c KC. destruct (queue_of (comps s c) 0) as [|x l] eqn:Q; [reflexivity|]. exfalso.
    assert (A : gstep g s (EArr c 0) = None) by (apply AR; [exact I|discriminate]).
    cbn [gstep] in A. rewrite KC, Q in A. discriminate. }
  pose proof (quiet_queues g W rank s V RK R WE CE NE) as QE.
  pose proof (packets_balance g W es s E) as P.
  assert (IE : inside g s = []).
  { unfold inside. rewrite WE. cbn [map app]. induction (seq 0 (n_size g)) as [|c l IH]; [reflexivity|].
    cbn [flat_map]. rewrite QE, IH. reflexivity. }
  rewrite IE, app_nil_r in P. exact P.
Qed.
Print Assumptions at_rest_all_delivered.

(* From any reachable state the network comes to rest: the steps without further
   injections are bounded. *)
Theorem comes_to_rest : forall g rank, wired g ->
  forall es s, run g (init g) es = Some s ->
  exists N, forall es' s', all_obey rank g s es' -> run g s es' = Some s' ->
  (forall c id b, ~ In (EInj c id b) es') -> Z.of_nat (length es') <= N.
Proof.
  intros g rank W es s E. exists (potential g rank s). intros es' s' OB E' NI.
  apply (run_cost g W rank es' s s'); auto. apply (reach_inv g W es s E).
Qed.
Print Assumptions comes_to_rest.

(* ---------- examples ---------- *)

(* A node's injection buffer 0, a switch with crossbar 1 and output buffers 2 and 3,
   and the nodes 4 and 5 behind them.  Two virtual channels. *)
Definition small (cr mtu : Z) : net :=
  {| n_size := 6;
     n_kind := fun c => match c with 0%nat | 2%nat | 3%nat => Buf | 1%nat => Xbar | _ => Nic end;
     n_ports := fun c => match c with 0%nat | 2%nat | 3%nat => 1%nat | 1%nat => 2%nat | _ => 0%nat end;
     n_vcs := fun c => match c with 0%nat => 1%nat | _ => 2%nat end;
     n_dst := fun c p => match c with 0%nat => (1, 0)%nat | 1%nat => ((2 + p)%nat, 0%nat) | _ => ((2 + c)%nat, 0%nat) end;
     n_src := fun d i => match d, i with
              | 1%nat, O => Some (0, 0)%nat | 2%nat, O => Some (1, 0)%nat | 3%nat, O => Some (1, 1)%nat
              | 4%nat, O => Some (2, 0)%nat | 5%nat, O => Some (3, 0)%nat | _, _ => None end;
     n_credits := fun c _ => cr;
     n_mtu := mtu |}.

Lemma small_wired : forall cr mtu, 0 <= cr < 2 ^ 31 -> wired (small cr mtu).
Proof.
  intros cr mtu H. constructor; unfold sender, initial, small; cbn [n_size n_kind n_ports n_vcs n_dst n_src n_credits].
  - intros c p S P. destruct c as [|[|[|[|c]]]]; cbn in *; try contradiction.
    + replace p with 0%nat by lia. split; [reflexivity|lia].
    + destruct p as [|[|p]]; [split; [reflexivity|lia]|split; [reflexivity|lia]|lia].
    + replace p with 0%nat by lia. split; [reflexivity|lia].
    + replace p with 0%nat by lia. split; [reflexivity|lia].
  - intros d i c p E. destruct d as [|[|[|[|[|[|d]]]]]]; try discriminate; destruct i; try discriminate;
      injection E as <- <-; repeat split; try discriminate; lia.
  - intros c K. destruct c as [|[|[|[|c]]]]; try discriminate; reflexivity.
  - intros d i c p K E. destruct d as [|[|[|[|[|[|d]]]]]]; try discriminate; destruct i; try discriminate;
      injection E as <- <-; cbn; lia.
  - intros c p. assert (0 <= cr / Z.of_nat (match c with 0%nat => 1%nat | _ => 2%nat end) <= cr).
    { destruct c; cbn [Z.of_nat Pos.of_succ_nat Pos.succ]; [rewrite Z.div_1_r; lia|].
      split; [apply Z.div_pos; lia|apply Z.div_le_upper_bound; lia]. }
    lia.
Qed.

Definition small_rank (c p v : nat) : nat := match c with 0%nat => 3%nat | 1%nat => 2%nat | _ => 1%nat end.

Lemma small_roomy : roomy (small 8 4).
Proof.
  intros c p S P. destruct c as [|[|[|[|c]]]]; cbn in *; try (unfold Z.le; cbn; discriminate).
Qed.

Lemma small_can_route : can_route small_rank (small 8 4).
Proof.
  intros d i c p v E HV. destruct d as [|[|[|[|[|[|d]]]]]]; try discriminate; destruct i; try discriminate;
    injection E as <- <-; cbn.
  - exists 0%nat, 0%nat. repeat split; lia.
  - lia.
  - lia.
  - exact I.
  - exact I.
Qed.

(* Packets of 4, 4 and 2 bytes to node 4 on channel 1.  The second and third find no
   credits and are queued at the crossbar. *)
Definition three : list event :=
  [EInj 0 7 4; EInj 0 8 4; EPay 0 0 1; EPay 0 0 1; ECred 0; EInj 0 9 2; EPay 1 0 1].

Lemma small_obeys : forall cr mtu s e, obeys small_rank (small cr mtu) s e.
Proof.
  intros cr mtu s e. destruct e as [k out v| | |]; try exact I. cbn [obeys].
  destruct (nth_error (wires s) k) as [[[d i] x]|]; [|exact I]. intros c p E.
  destruct d as [|[|[|[|[|[|d]]]]]]; try discriminate; destruct i; try discriminate;
    injection E as <- <-; cbn; auto; lia.
Qed.

Lemma small_all_obey : forall cr mtu es s, all_obey small_rank (small cr mtu) s es.
Proof.
  intros cr mtu. induction es as [|e es IH]; intro s; [exact I|]. cbn [all_obey].
  split; [apply small_obeys|]. destruct (gstep (small cr mtu) s e); [apply IH|exact I].
Qed.

Example three_reach : exists s, run (small 8 4) (init (small 8 4)) three = Some s /\
  all_obey small_rank (small 8 4) (init (small 8 4)) three /\
  map p_id (queue_of (comps s 1) 1) = [8; 9]%nat /\ outstanding (small 8 4) s 1 0 1 = [4].
Proof.
  destruct (run (small 8 4) (init (small 8 4)) three) as [s|] eqn:E; [|vm_compute in E; discriminate].
  exists s. split; [reflexivity|]. split; [apply small_all_obey|].
  assert (A : option_map (fun s => (map p_id (queue_of (comps s 1) 1), outstanding (small 8 4) s 1 0 1))
    (run (small 8 4) (init (small 8 4)) three) = Some ([8; 9]%nat, [4])) by (vm_compute; reflexivity).
  rewrite E in A. cbn [option_map] in A. injection A as A B. auto.
Qed.

Example three_conserved : forall s, run (small 8 4) (init (small 8 4)) three = Some s ->
  credit_of (comps s 1) 1 + total (outstanding (small 8 4) s 1 0 1) = 4.
Proof.
  intros s E. apply (credits_conserved (small 8 4) (small_wired 8 4 ltac:(lia)) three s E 1 0 1).
  repeat split; [discriminate|cbn; lia|cbn; lia].
Qed.

Definition three_all : list event := three ++
  [EPay 0 0 0; ECred 0; ECred 0; EPay 1 0 0; EPay 0 0 0; EArr 4 0; ECred 0; ECred 0; ECred 0;
   EPay 0 0 0; EPay 0 0 0; EArr 4 0; ECred 0; ECred 0; EPay 0 0 0; EArr 4 0; ECred 0].

Example three_at_rest : exists s, run (small 8 4) (init (small 8 4)) three_all = Some s /\
  all_obey small_rank (small 8 4) (init (small 8 4)) three_all /\
  at_rest small_rank (small 8 4) s /\
  history left_ (small 8 4) (init (small 8 4)) three_all = [7; 8; 9]%nat.
Proof.
  destruct (run (small 8 4) (init (small 8 4)) three_all) as [s|] eqn:E; [|vm_compute in E; discriminate].
  exists s. split; [reflexivity|]. split; [apply small_all_obey|]. split; [|vm_compute; reflexivity].
  assert (A : option_map (fun s => (wires s, cwires s, queue_of (comps s 4) 0, queue_of (comps s 5) 0))
    (run (small 8 4) (init (small 8 4)) three_all) = Some ([], [], [], [])) by (vm_compute; reflexivity).
  rewrite E in A. cbn [option_map] in A. injection A as A B C D.
  intros e OB NI. destruct e as [k out v|k|c k|c id b]; cbn [gstep].
  - rewrite A. destruct k; reflexivity.
  - rewrite B. destruct k; reflexivity.
  - destruct c as [|[|[|[|[|[|c]]]]]]; try reflexivity.
    + rewrite C. destruct k; reflexivity.
    + rewrite D. destruct k; reflexivity.
    + cbn [small n_kind].
      pose proof (reach_inv _ (small_wired 8 4 ltac:(lia)) three_all s E) as V.
      destruct (nth_error (queue_of (comps s (S (S (S (S (S (S c))))))) 0) k) as [x|] eqn:N; [|reflexivity].
      pose proof (arr_size _ (small_wired 8 4 ltac:(lia)) s (S (S (S (S (S (S c)))))) k x V eq_refl N) as L. cbn in L. lia.
  - exfalso. apply (NI c id b). reflexivity.
Qed.

(* ---------- C40 refuted ---------- *)

(* The configuration passes the constructor's check, but a packet of full size never
   fits the half of the credits that its channel gets. *)
Theorem queued_means_busy_refuted : exists g es s c p v,
  wired g /\ accepted g /\ run g (init g) es = Some s /\ output g c p v /\
  queue_of (comps s c) (slot (n_vcs g c) p v) <> [] /\
  outstanding g s c p v = [] /\ wires s = [] /\ cwires s = [].
Proof.
  exists (small 4 4), [EInj 0 7 4; EPay 0 0 1]. eexists. exists 1%nat, 0%nat, 1%nat.
  split; [apply small_wired; lia|]. split; [intros c p S P; cbn; lia|].
  split; [vm_compute; reflexivity|].
  split; [split; [discriminate|split; cbn; lia]|].
  split; [vm_compute; discriminate|]. repeat split.
Qed.
Print Assumptions queued_means_busy_refuted.
