(* PISCES networks without cyclic channel dependencies deliver every packet. *)
From Coq Require Import List ZArith Bool Arith Lia Permutation.
From Verif Require Import PtModel PtProp PcModel PcProof PcNet.
Import ListNotations.
Local Open Scope Z_scope.

(* ---------- specification ---------- *)

(* The packets that entered and left during a run, by p_id. *)
Definition entered (g : net) (s : state) (e : event) : list nat :=
  match e with
  | EInj c id b =>
    if n_mtu g <=? credit_of (comps s c) 0 then [id] else []
  | _ => []
  end.
Definition left_ (g : net) (s : state) (e : event) : list nat :=
  match e with
  | EArr c k => match nth_error (queue_of (comps s c) 0) k with Some x => [p_id x] | None => [] end
  | _ => []
  end.
Fixpoint history (f : net -> state -> event -> list nat) (g : net) (s : state) (es : list event) : list nat :=
  match es with
  | [] => []
  | e :: r => match gstep g s e with Some s1 => f g s e ++ history f g s1 r | None => [] end
  end.

(* The packets in the network. *)
Definition inside (g : net) (s : state) : list nat :=
  map (fun x => p_id (snd x)) (wires s) ++
  flat_map (fun c => map p_id (concat (queues (comps s c)))) (seq 0 (n_size g)).

(* The router never makes a packet wait for a channel of the same or a higher rank than
   the one it came by. *)
Definition obeys (rank : nat -> nat -> nat -> nat) (g : net) (s : state) (e : event) : Prop :=
  match e with
  | EPay k out v =>
    match nth_error (wires s) k with
    | Some (d, i, x) =>
      forall c p, n_src g d i = Some (c, p) ->
      match n_kind g d with
      | Xbar => (rank d out v < rank c p (p_vc x))%nat
      | Buf => (rank d 0 (p_vc x) < rank c p (p_vc x))%nat
      | Nic => True
      end
    | None => True
    end
  | _ => True
  end.
Fixpoint all_obey (rank : nat -> nat -> nat -> nat) (g : net) (s : state) (es : list event) : Prop :=
  match es with
  | [] => True
  | e :: r => obeys rank g s e /\ match gstep g s e with Some s1 => all_obey rank g s1 r | None => True end
  end.

(* ---------- accounting ---------- *)

Section Acc.
Variable g : net.
Hypothesis W : wired g.
Variable fw : nat * nat * pkt -> Z.
Variable fh : nat -> pkt -> Z.
Variable fc : nat * nat * nat * Z -> Z.

Definition gtot (s : state) : Z :=
  sum fw (wires s) + sum (fun c => sum (fh c) (concat (queues (comps s c)))) (seq 0 (n_size g)) +
  sum fc (cwires s).

Lemma sum_change : forall (f h : nat -> Z) c0 n a, (a <= c0 < a + n)%nat -> (forall c, c <> c0 -> f c = h c) ->
  sum f (seq a n) = sum h (seq a n) + f c0 - h c0.
Proof.
  intros f h c0 n. induction n as [|n IH]; intros a L E; [lia|]. cbn [seq]. rewrite !sum_cons.
  destruct (Nat.eq_dec a c0) as [->|N].
  - rewrite (sum_ext _ f h); [lia|]. intros x X. apply E. apply in_seq in X. lia.
  - rewrite (E a N), IH by (auto; lia). lia.
Qed.

Lemma gtot_put : forall s c0 st' O I, (c0 < n_size g)%nat ->
  Permutation (O ++ concat (queues st')) (I ++ concat (queues (comps s c0))) ->
  gtot (put g s c0 (st', O)) = gtot s + sum (fh c0) I +
    sum (fun o => fw (on_wire g c0 o) + sum fc (on_credit g c0 o) - fh c0 o) O.
Proof.
  intros s c0 st' O I L P. unfold gtot, put. cbn [comps wires cwires fst snd].
  rewrite !sum_app, sum_map, sum_flat_map.
  rewrite (sum_change (fun c => sum (fh c) (concat (queues (if (c =? c0)%nat then st' else comps s c))))
             (fun c => sum (fh c) (concat (queues (comps s c)))) c0);
    [|lia|intros c N; destruct (Nat.eqb_spec c c0); [contradiction|reflexivity]].
  rewrite Nat.eqb_refl.
  pose proof (sum_perm _ (fh c0) _ _ P) as SP. rewrite !sum_app in SP.
  assert (E : sum (fun o => fw (on_wire g c0 o) + sum fc (on_credit g c0 o) - fh c0 o) O =
    sum (fun x => fw (on_wire g c0 x)) O + sum (fun x => sum fc (on_credit g c0 x)) O - sum (fh c0) O).
  { clear. induction O; [reflexivity|]. rewrite !sum_cons, IHO. lia. }
  rewrite E. lia.
Qed.

Lemma gtot_wire : forall s k x, nth_error (wires s) k = Some x ->
  gtot {| comps := comps s; wires := remove_at k (wires s); cwires := cwires s |} = gtot s - fw x.
Proof. intros s k x E. unfold gtot. cbn [wires comps cwires]. pose proof (sum_remove _ fw _ _ _ E). lia. Qed.

Lemma gtot_cwire : forall s k x, nth_error (cwires s) k = Some x ->
  gtot {| comps := comps s; wires := wires s; cwires := remove_at k (cwires s) |} = gtot s - fc x.
Proof. intros s k x E. unfold gtot. cbn [wires comps cwires]. pose proof (sum_remove _ fc _ _ _ E). lia. Qed.
End Acc.

(* How a step looks to such an account. *)
Inductive view (g : net) (s : state) : event -> state -> Prop :=
| view_pay : forall k out v d i x x1 st' O,
    nth_error (wires s) k = Some (d, i, x) -> p_id x1 = p_id x -> p_bytes x1 = p_bytes x ->
    p_vc x1 = p_vc x -> p_in x1 = i ->
    (n_kind g d = Xbar -> p_out x1 = out /\ p_next x1 = v) -> (n_kind g d = Buf -> p_out x1 = 0%nat) ->
    (n_kind g d = Nic -> O = []) -> (sender g d -> (p_out x1 < n_ports g d)%nat) ->
    Permutation (O ++ concat (queues st')) (x1 :: concat (queues (comps s d))) ->
    view g s (EPay k out v)
      (put g {| comps := comps s; wires := remove_at k (wires s); cwires := cwires s |} d (st', O))
| view_cred : forall k c p v n st' O,
    nth_error (cwires s) k = Some (c, p, v, n) -> sender g c ->
    Permutation (O ++ concat (queues st')) (concat (queues (comps s c))) ->
    view g s (ECred k)
      (put g {| comps := comps s; wires := wires s; cwires := remove_at k (cwires s) |} c (st', O))
| view_arr : forall c k x st',
    n_kind g c = Nic -> nth_error (queue_of (comps s c) 0) k = Some x ->
    Permutation (x :: concat (queues st')) (concat (queues (comps s c))) ->
    view g s (EArr c k)
      {| comps := fun y => if Nat.eqb y c then st' else comps s y; wires := wires s;
         cwires := cwires s ++ on_credit g c x |}
| view_inj : forall c id b x st' O,
    n_kind g c = Buf -> n_src g c 0 = None -> (c < n_size g)%nat -> p_id x = id -> p_in x = 0%nat ->
    O = (if n_mtu g <=? credit_of (comps s c) 0 then [x] else []) ->
    Permutation (concat (queues st')) (concat (queues (comps s c))) ->
    view g s (EInj c id b) (put g s c (st', O)).

Section Del.
Variable g : net.
Hypothesis W : wired g.

Lemma step_view : forall s e s', inv g s none -> gstep g s e = Some s' -> view g s e s'.
Proof.
  intros s e s' V E. destruct e as [k out v|k|c k|c id bytes]; cbn [gstep] in E.
  - destruct (nth_error (wires s) k) as [[[d i] x]|] eqn:NE; [|discriminate].
    destruct (i_wire _ _ _ V d i x) as [c [p [SR [HV HB]]]]; [eapply nth_error_In, NE|].
    destruct (n_kind g d) eqn:KD.
    + destruct (Nat.ltb_spec out (n_ports g d)); [|discriminate].
      destruct (Nat.ltb_spec v (n_vcs g d)); [|discriminate]. cbn [andb] in E. injection E as <-.
      assert (SD : sender g d) by (unfold sender; congruence).
      assert (UP : upd g d = true) by (unfold upd; rewrite KD; reflexivity).
      set (x1 := {| p_id := p_id x; p_bytes := p_bytes x; p_vc := p_vc x; p_next := v; p_in := i; p_out := out |}).
      destruct (xbar_payload (n_vcs g d) true (comps s d) x1) as [st' O] eqn:XP.
      destruct (i_fine _ _ _ V d SD) as [F L]. rewrite UP in F.
      assert (A : acts (n_vcs g d) true (comps s d) [x1] None st' O).
      { apply take_payload_acts; [exact F| |exact XP]. rewrite L. apply slot_lt; auto. }
      apply (view_pay g s k out v d i x x1 st' O); try reflexivity; try congruence; try (intros; cbn; auto; lia); apply (a_perm _ _ _ _ _ _ _ A).
    + injection E as <-.
      assert (SD : sender g d) by (unfold sender; congruence).
      assert (UP : upd g d = false) by (unfold upd; rewrite KD; reflexivity).
      set (x1 := {| p_id := p_id x; p_bytes := p_bytes x; p_vc := p_vc x; p_next := p_next x; p_in := i; p_out := 0%nat |}).
      pose proof (w_buf g W d KD) as PB. pose proof (w_vcs g W d i c p KD SR) as VB.
      destruct (buf_payload (comps s d) x1) as [st' O] eqn:XP.
      destruct (i_fine _ _ _ V d SD) as [F L]. rewrite UP in F.
      assert (A : acts (n_vcs g d) false (comps s d) [x1] None st' O).
      { apply take_payload_acts; [exact F| |exact XP]. rewrite L. apply slot_lt; cbn; lia. }
      apply (view_pay g s k out v d i x x1 st' O); try reflexivity; try congruence; try (intros; cbn; auto; lia); apply (a_perm _ _ _ _ _ _ _ A).
    + injection E as <-.
      set (x1 := {| p_id := p_id x; p_bytes := p_bytes x; p_vc := p_vc x; p_next := p_next x; p_in := i; p_out := 0%nat |}).
      pose proof (i_nic _ _ _ V d KD) as L1.
      destruct (queues_one (comps s d) (queue_of (comps s d) 0 ++ [x1]) L1) as [Q1 Q2].
      apply (view_pay g s k out v d i x x1); auto; try congruence; try (intro X; contradiction).
      cbn [app]. rewrite Q1, Q2. symmetry. apply Permutation_cons_append.
  - destruct (nth_error (cwires s) k) as [[[[c p] v] n]|] eqn:NE; [|discriminate].
    destruct (i_cwire _ _ _ V c p v n) as [SC [PC [HV HN]]]; [eapply nth_error_In, NE|].
    destruct (i_fine _ _ _ V c SC) as [F L].
    destruct (n_kind g c) eqn:KC; [| |contradiction]; injection E as <-.
    + assert (UP : upd g c = true) by (unfold upd; rewrite KC; reflexivity). rewrite UP in F.
      destruct (xbar_credit (n_vcs g c) (comps s c) p v n) as [st' O] eqn:XP.
      apply (view_cred g s k c p v n st' O); auto.
      assert (SL : (slot (n_vcs g c) p v < length (queues (comps s c)))%nat) by (rewrite L; apply slot_lt; auto).
      apply (a_perm _ _ _ _ _ _ _ (xbar_credit_acts _ _ _ _ _ _ _ F HN SL XP)).
    + assert (UP : upd g c = false) by (unfold upd; rewrite KC; reflexivity). rewrite UP in F.
      pose proof (w_buf g W c KC) as PB.
      destruct (buf_credit (comps s c) v n) as [st' O] eqn:XP.
      apply (view_cred g s k c p v n st' O); auto.
      assert (SL : (v < length (queues (comps s c)))%nat) by (rewrite L, PB; lia).
      apply (a_perm _ _ _ _ _ _ _ (buf_credit_acts _ _ _ _ _ _ F HN SL XP)).
  - destruct (n_kind g c) eqn:KC; try discriminate.
    destruct (nth_error (queue_of (comps s c) 0) k) as [x|] eqn:NE; [|discriminate]. injection E as <-.
    pose proof (i_nic _ _ _ V c KC) as L1.
    destruct (queues_one (comps s c) (remove_at k (queue_of (comps s c) 0)) L1) as [Q1 Q2].
    apply (view_arr g s c k x); auto. rewrite Q1, Q2. symmetry. apply perm_remove_at, NE.
  - destruct (n_kind g c) eqn:KC; try discriminate.
    destruct (n_src g c 0) as [|] eqn:SR; [discriminate|].
    destruct ((0 <=? bytes) && (bytes <=? n_mtu g) && (c <? n_size g)%nat && (0 <? n_vcs g c)%nat && (0 <? n_ports g c)%nat) eqn:B; [|discriminate].
    repeat (apply andb_prop in B; destruct B as [B ?]). injection E as <-.
    apply Z.leb_le in B. repeat match goal with H : (_ <=? _) = true |- _ => apply Z.leb_le in H
      | H : (_ <? _)%nat = true |- _ => apply Nat.ltb_lt in H end.
    set (x := {| p_id := id; p_bytes := bytes; p_vc := 0%nat; p_next := 0%nat; p_in := 0%nat; p_out := 0%nat |}).
    assert (X : inject_one (n_mtu g) (comps s c) x =
      ((if n_mtu g <=? credit_of (comps s c) 0 then set_credit (comps s c) 0 (credit_of (comps s c) 0 - bytes) else comps s c),
       (if n_mtu g <=? credit_of (comps s c) 0 then [x] else []))).
    { unfold inject_one. cbn [p_vc p_bytes x]. destruct (n_mtu g <=? credit_of (comps s c) 0); reflexivity. }
    rewrite X. apply (view_inj g s c id bytes x); auto.
    destruct (n_mtu g <=? credit_of (comps s c) 0); reflexivity.
Qed.

Lemma pay_size : forall s k d i x, inv g s none -> nth_error (wires s) k = Some (d, i, x) -> (d < n_size g)%nat.
Proof.
  intros s k d i x V E. destruct (i_wire _ _ _ V d i x) as [c [p [SR _]]]; [eapply nth_error_In, E|].
  destruct (w_src g W _ _ _ _ SR) as [SC [PC [DE _]]]. destruct (w_dst g W c p SC PC) as [_ L].
  rewrite DE in L. exact L.
Qed.

Lemma cred_size : forall s k c p v n, inv g s none -> nth_error (cwires s) k = Some (c, p, v, n) ->
  forall d i, n_dst g c p = (d, i) -> (c < n_size g)%nat.
Proof.
  intros s k c p v n V E d i D. destruct (i_cwire _ _ _ V c p v n) as [SC [PC _]]; [eapply nth_error_In, E|].
  destruct (w_dst g W c p SC PC) as [K _]. apply (w_src g W _ _ _ _ K).
Qed.

Lemma arr_size : forall s c k x, inv g s none -> n_kind g c = Nic ->
  nth_error (queue_of (comps s c) 0) k = Some x -> (c < n_size g)%nat.
Proof.
  intros s c k x V KC NE.
  pose proof (i_nic _ _ _ V c KC) as L1. destruct (queues_one (comps s c) [] L1) as [_ Q2].
  destruct (i_held _ _ _ V c x) as [[c2 [p2 [S2 _]]] _]; [rewrite Q2; eapply nth_error_In, NE|].
  destruct (w_src g W _ _ _ _ S2) as [SC [PC [DE _]]]. destruct (w_dst g W c2 p2 SC PC) as [_ L].
  rewrite DE in L. exact L.
Qed.

(* ---------- no packet lost or duplicated ---------- *)

Section Ids.
Variable id0 : nat.
Definition is0 (n : nat) : Z := if Nat.eqb n id0 then 1 else 0.
Definition now_ (s : state) : Z :=
  gtot g (fun x => is0 (p_id (snd x))) (fun _ x => is0 (p_id x)) (fun _ => 0) s.

Lemma credits_free : forall c o, sum (fun _ : nat * nat * nat * Z => 0) (on_credit g c o) = 0.
Proof. intros. apply sum_zero. reflexivity. Qed.

Lemma moves_free : forall c O,
  sum (fun o => is0 (p_id (snd (on_wire g c o))) + sum (fun _ => 0) (on_credit g c o) - is0 (p_id o)) O = 0.
Proof. intros c O. apply sum_zero. intros o _. rewrite credits_free. cbn [on_wire snd p_id]. lia. Qed.

Lemma step_ids : forall s e s', inv g s none -> gstep g s e = Some s' ->
  now_ s + sum is0 (entered g s e) = now_ s' + sum is0 (left_ g s e).
Proof.
  intros s e s' V E. pose proof (step_view s e s' V E) as VW. clear E.
  destruct VW as [k out v d i x x1 st' O NE E1 E2 E3 E4 K1 K2 K3 K4 P|k c p v n st' O NE SC P
    |c k x st' KC NE P|c id b x st' O KC SR CL E1 E2 EO P]; unfold now_; cbn [entered left_].
  - rewrite (gtot_put g _ _ _ _ d st' O [x1]) by (auto; apply (pay_size s k d i x V NE)).
    rewrite moves_free, (gtot_wire g _ _ _ s k _ NE). cbn [sum fold_right snd]. rewrite E1. lia.
  - rewrite (gtot_put g _ _ _ _ c st' O []) by (auto; destruct (n_dst g c p) eqn:D; apply (cred_size s k c p v n V NE _ _ D)).
    rewrite moves_free, (gtot_cwire g _ _ _ s k _ NE). cbn [sum fold_right snd]. lia.
  - rewrite NE. unfold gtot. cbn [wires cwires comps].
    pose proof (arr_size s c k x V KC NE) as CL.
    rewrite (sum_change (fun y => sum (fun x => is0 (p_id x)) (concat (queues (if (y =? c)%nat then st' else comps s y))))
       (fun y => sum (fun x => is0 (p_id x)) (concat (queues (comps s y)))) c);
      [|lia|intros y N; destruct (Nat.eqb_spec y c); [contradiction|reflexivity]].
    rewrite Nat.eqb_refl, (sum_zero _ (fun _ => 0) (cwires s)), (sum_zero _ (fun _ => 0) (cwires s ++ _)) by reflexivity.
    pose proof (sum_perm _ (fun x => is0 (p_id x)) _ _ P) as SP. rewrite sum_cons in SP.
    cbn [sum fold_right]. unfold sum in *. lia.
  - rewrite (gtot_put g _ _ _ s c st' O O) by (auto; rewrite P; reflexivity).
    rewrite moves_free. subst O. destruct (n_mtu g <=? credit_of (comps s c) 0); cbn [sum fold_right]; [rewrite E1|]; lia.
Qed.

Lemma run_ids : forall es s s', inv g s none -> run g s es = Some s' ->
  now_ s + sum is0 (history entered g s es) = now_ s' + sum is0 (history left_ g s es).
Proof.
  induction es as [|e es IH]; intros s s' V E; cbn [run history] in *; [injection E as <-; reflexivity|].
  destruct (gstep g s e) as [s1|] eqn:G; [|discriminate]. rewrite !sum_app.
  pose proof (step_ids s e s1 V G). pose proof (IH s1 s' (step_inv g W s e s1 V G) E). lia.
Qed.

Lemma sum_is0_count : forall l, sum is0 l = Z.of_nat (count_occ Nat.eq_dec l id0).
Proof.
  induction l as [|n l IH]; [reflexivity|]. rewrite sum_cons, IH. unfold is0. cbn [count_occ].
  destruct (Nat.eq_dec n id0) as [->|N]; [rewrite Nat.eqb_refl; lia|].
  destruct (Nat.eqb_spec n id0); [contradiction|lia].
Qed.

Lemma now_inside : forall s, now_ s = Z.of_nat (count_occ Nat.eq_dec (inside g s) id0).
Proof.
  intro s. rewrite <- sum_is0_count. unfold now_, gtot, inside.
  rewrite sum_app, sum_map, sum_flat_map, (sum_zero _ (fun _ => 0) (cwires s)) by reflexivity.
  rewrite (sum_ext _ (fun c => sum is0 (map p_id (concat (queues (comps s c)))))
    (fun c => sum (fun x => is0 (p_id x)) (concat (queues (comps s c))))) by (intros; apply sum_map).
  lia.
Qed.
End Ids.

Theorem packets_balance : forall es s, run g (init g) es = Some s ->
  Permutation (history entered g (init g) es) (history left_ g (init g) es ++ inside g s).
Proof.
  intros es s E. apply (Permutation_count_occ Nat.eq_dec). intro id0. rewrite count_occ_app.
  pose proof (run_ids id0 es (init g) s (init_inv g W) E) as R.
  rewrite !now_inside, !sum_is0_count in R.
  assert (Z0 : inside g (init g) = []).
  { unfold inside, init. cbn [wires comps map app]. induction (seq 0 (n_size g)) as [|c l IH]; [reflexivity|].
    cbn [flat_map]. rewrite IH, app_nil_r. unfold init_comp.
    destruct (n_kind g c); cbn [queues]; rewrite ?concat_repeat_nil; reflexivity. }
  rewrite Z0 in R. cbn [count_occ] in R. lia.
Qed.

(* ---------- ranks ---------- *)

Variable rank : nat -> nat -> nat -> nat.

Definition ranked (s : state) : Prop :=
  forall d x c p, sender g d -> In x (concat (queues (comps s d))) -> n_src g d (p_in x) = Some (c, p) ->
  (rank d (p_out x) (leave_vc (upd g d) x) < rank c p (p_vc x))%nat.

Lemma step_ranked : forall s e s', inv g s none -> ranked s -> obeys rank g s e ->
  gstep g s e = Some s' -> ranked s'.
Proof.
  intros s e s' V R OB E. pose proof (step_view s e s' V E) as VW. clear E.
  destruct VW as [k out v d i x x1 st' O NE E1 E2 E3 E4 K1 K2 K3 K4 P|k c p v n st' O NE SC P
    |c k x st' KC NE P|c id b x st' O KC SR CL E1 E2 EO P];
    intros d' y c' p' SD Y SY; cbn [put comps fst] in Y.
  - destruct (Nat.eqb_spec d' d) as [->|N]; [|apply (R d' y); auto].
    assert (K : In y (x1 :: concat (queues (comps s d)))) by (rewrite <- P; apply in_app_iff; auto).
    destruct K as [<-|K]; [|apply (R d y); auto].
    cbn [obeys] in OB. rewrite NE in OB. rewrite E4 in SY. specialize (OB c' p' SY). rewrite E3.
    unfold upd, leave_vc, sender in *. destruct (n_kind g d) eqn:KD; [| |contradiction].
    + destruct (K1 eq_refl) as [-> ->]. exact OB.
    + rewrite (K2 eq_refl), E3. exact OB.
  - destruct (Nat.eqb_spec d' c) as [->|N]; [|apply (R d' y); auto].
    apply (R c y); auto. rewrite <- P. apply in_app_iff; auto.
  - destruct (Nat.eqb_spec d' c) as [->|N]; [contradiction|apply (R d' y); auto].
  - destruct (Nat.eqb_spec d' c) as [->|N]; [|apply (R d' y); auto].
    apply (R c y); auto. rewrite <- P. exact Y.
Qed.

Lemma run_ranked : forall es s s', inv g s none -> ranked s -> all_obey rank g s es ->
  run g s es = Some s' -> ranked s' /\ inv g s' none.
Proof.
  induction es as [|e es IH]; intros s s' V R OB E; cbn [run all_obey] in *; [injection E as <-; auto|].
  destruct (gstep g s e) as [s1|] eqn:G; [|discriminate]. destruct OB as [O1 O2].
  apply (IH s1 s'); auto.
  - apply (step_inv g W s e s1 V G).
  - apply (step_ranked s e s1); auto.
Qed.

Lemma init_ranked : ranked (init g).
Proof.
  intros d x c p SD X. exfalso. cbn [init comps] in X. unfold init_comp in X.
  destruct (n_kind g d); cbn [queues] in X; rewrite ?concat_repeat_nil in X; destruct X.
Qed.

Lemma quiet_queues : forall s, inv g s none -> ranked s -> fits g -> wires s = [] -> cwires s = [] ->
  (forall c, n_kind g c = Nic -> queue_of (comps s c) 0 = []) ->
  forall c, concat (queues (comps s c)) = [].
Proof.
  intros s V R FI WE CE NE.
  assert (G : forall n c p v, (rank c p v < n)%nat -> sender g c -> (p < n_ports g c)%nat -> (v < n_vcs g c)%nat ->
    queue_of (comps s c) (slot (n_vcs g c) p v) = []).
  { induction n as [|n IH]; intros c p v L SC PC HV; [lia|].
    destruct (queue_of (comps s c) (slot (n_vcs g c) p v)) as [|q0 qr] eqn:Q; [reflexivity|]. exfalso.
    assert (T : 0 < tot one g s c p v + none one c p v).
    { apply (i_live _ _ _ V FI c p v SC PC HV). rewrite Q. discriminate. }
    unfold tot, none in T. rewrite WE, CE in T. cbn [sum fold_right] in T.
    set (d := fst (n_dst g c p)) in T. set (i := snd (n_dst g c p)) in T.
    assert (EX : exists x, In x (concat (queues (comps s d))) /\ mh i v x = true).
    { destruct (existsb (mh i v) (concat (queues (comps s d)))) eqn:X.
      - apply existsb_exists in X. exact X.
      - exfalso. assert (K : sum (fun x => if mh i v x then one (p_bytes x) else 0) (concat (queues (comps s d))) = 0).
        { apply sum_zero. intros x XI. destruct (mh i v x) eqn:M; [|reflexivity].
          exfalso. assert (H : existsb (mh i v) (concat (queues (comps s d))) = true) by (apply existsb_exists; eauto).
          congruence. }
        unfold sum in K, T; cbv beta in K, T; lia. }
    destruct EX as [x [XI M]]. unfold mh in M. apply andb_prop in M. destruct M as [M1 M2].
    apply Nat.eqb_eq in M1, M2.
    destruct (w_dst g W c p SC PC) as [SR _]. fold d in SR. fold i in SR.
    destruct (n_kind g d) eqn:KD.
    1,2: (assert (SD : sender g d) by (unfold sender; congruence);
      destruct (i_held _ _ _ V d x XI) as [_ [_ H]]; destruct (H SD) as [H1 H2];
      assert (RL : (rank d (p_out x) (leave_vc (upd g d) x) < rank c p v)%nat)
        by (rewrite <- M2; apply (R d x c p SD XI); rewrite M1; exact SR);
      specialize (IH d (p_out x) (leave_vc (upd g d) x) ltac:(lia) SD H1 H2);
      apply in_concat_nth in XI; destruct XI as [sx [_ XI]];
      destruct (i_fine _ _ _ V d SD) as [F _];
      pose proof (f_place _ _ _ F sx x XI) as PL; unfold where_ in PL;
      change (nth sx (queues (comps s d)) []) with (queue_of (comps s d) sx) in XI;
      rewrite <- PL, IH in XI; destruct XI).
    pose proof (i_nic _ _ _ V d KD) as L1. destruct (queues_one (comps s d) [] L1) as [_ Q2].
    rewrite Q2, (NE d KD) in XI. destruct XI. }
  intro c. destruct (concat (queues (comps s c))) as [|x l] eqn:Q; [reflexivity|]. exfalso.
  assert (XI : In x (concat (queues (comps s c)))) by (rewrite Q; left; reflexivity).
  destruct (n_kind g c) eqn:KC.
  1,2: (assert (SC : sender g c) by (unfold sender; congruence);
    destruct (i_held _ _ _ V c x XI) as [_ [_ H]]; destruct (H SC) as [H1 H2];
    pose proof (G (S (rank c (p_out x) (leave_vc (upd g c) x))) c (p_out x) (leave_vc (upd g c) x)
      (le_n _) SC H1 H2) as GE;
    apply in_concat_nth in XI; destruct XI as [sx [_ XI]];
    destruct (i_fine _ _ _ V c SC) as [F _];
    pose proof (f_place _ _ _ F sx x XI) as PL; unfold where_ in PL;
    change (nth sx (queues (comps s c)) []) with (queue_of (comps s c) sx) in XI;
    rewrite <- PL, GE in XI; destruct XI).
  pose proof (i_nic _ _ _ V c KC) as L1. destruct (queues_one (comps s c) [] L1) as [_ Q2].
  rewrite Q2, (NE c KC) in XI. destruct XI.
Qed.

(* ---------- every run ends ---------- *)

Definition rw (x : nat * nat * pkt) : Z :=
  match n_src g (fst (fst x)) (snd (fst x)) with
  | Some (c, p) => 5 * Z.of_nat (rank c p (p_vc (snd x))) + 3
  | None => 3
  end.
Definition rh (c : nat) (x : pkt) : Z :=
  match n_kind g c with
  | Nic => 2
  | _ => 5 * Z.of_nat (rank c (p_out x) (leave_vc (upd g c) x)) + 5
  end.
Definition potential (s : state) : Z := gtot g rw rh (fun _ => 1) s.

Lemma potential_nonneg : forall s, 0 <= potential s.
Proof.
  intro s. unfold potential, gtot.
  assert (0 <= sum rw (wires s)).
  { apply sum_nonneg. intros x _. unfold rw. destruct (n_src g _ _) as [[c p]|]; lia. }
  assert (0 <= sum (fun c => sum (rh c) (concat (queues (comps s c)))) (seq 0 (n_size g))).
  { apply sum_nonneg. intros c _. apply sum_nonneg. intros x _. unfold rh. destruct (n_kind g c); lia. }
  assert (0 <= sum (fun _ => 1) (cwires s)) by (apply sum_nonneg; intros; lia). lia.
Qed.

Lemma credit_one : forall c o, sum (fun _ => 1) (on_credit g c o) <= 1.
Proof. intros c o. unfold on_credit. destruct (n_src g c (p_in o)) as [[a b]|]; cbn; lia. Qed.

Lemma moves_cost : forall c O, sender g c -> (forall o, In o O -> (p_out o < n_ports g c)%nat) ->
  sum (fun o => rw (on_wire g c o) + sum (fun _ => 1) (on_credit g c o) - rh c o) O <= - Z.of_nat (length O).
Proof.
  intros c O SC H. induction O as [|o O IH]; [cbn; lia|]. rewrite sum_cons. cbn [length].
  specialize (IH (fun o OI => H o (or_intror OI))). pose proof (credit_one c o) as C1.
  destruct (w_dst g W c (p_out o) SC (H o (or_introl eq_refl))) as [SR _].
  assert (RW : rw (on_wire g c o) = 5 * Z.of_nat (rank c (p_out o) (leave_vc (upd g c) o)) + 3).
  { unfold rw, on_wire. cbn [fst snd p_vc]. rewrite SR. reflexivity. }
  assert (RH : rh c o = 5 * Z.of_nat (rank c (p_out o) (leave_vc (upd g c) o)) + 5).
  { unfold rh, sender in *. destruct (n_kind g c); [reflexivity|reflexivity|contradiction]. }
  rewrite RW, RH. lia.
Qed.

Lemma step_cost : forall s e s', inv g s none -> obeys rank g s e -> gstep g s e = Some s' ->
  (forall c id b, e <> EInj c id b) -> potential s' < potential s.
Proof.
  intros s e s' V OB E NI. pose proof (step_inv g W s e s' V E) as V'. pose proof (step_view s e s' V E) as VW. clear E.
  destruct VW as [k out v d i x x1 st' O NE E1 E2 E3 E4 K1 K2 K3 K4 P|k c p v n st' O NE SC P
    |c k x st' KC NE P|c id b x st' O KC SR CL E1 E2 EO P]; unfold potential.
  - rewrite (gtot_put g _ _ _ _ d st' O [x1]) by (auto; apply (pay_size s k d i x V NE)).
    rewrite (gtot_wire g _ _ _ s k _ NE).
    destruct (i_wire _ _ _ V d i x) as [c [p [SR [HV HB]]]]; [eapply nth_error_In, NE|].
    cbn [obeys] in OB. rewrite NE in OB. specialize (OB c p SR).
    assert (RX : rw (d, i, x) = 5 * Z.of_nat (rank c p (p_vc x)) + 3) by (unfold rw; cbn [fst snd]; rewrite SR; reflexivity).
    rewrite RX. rewrite sum_cons. cbn [sum fold_right].
    destruct (n_kind g d) eqn:KD.
    1,2: (assert (SD : sender g d) by (unfold sender; congruence);
      assert (MC : sum (fun o => rw (on_wire g d o) + sum (fun _ => 1) (on_credit g d o) - rh d o) O <= - Z.of_nat (length O))
        by (apply moves_cost; [exact SD|]; intros o OI;
            assert (K' : In o (x1 :: concat (queues (comps s d)))) by (rewrite <- P; apply in_app_iff; auto);
            destruct K' as [<-|K']; [apply K4, SD|apply (i_held _ _ _ V d o K'); exact SD]);
      assert (RH : rh d x1 = 5 * Z.of_nat (rank d (p_out x1) (leave_vc (upd g d) x1)) + 5)
        by (unfold rh; rewrite KD; reflexivity);
      unfold upd in RH; rewrite KD in RH; unfold leave_vc in RH).
    + destruct (K1 eq_refl) as [KO KN]. rewrite KO, KN in RH. lia.
    + rewrite (K2 eq_refl), E3 in RH. lia.
    + rewrite (K3 eq_refl). cbn [sum fold_right].
      assert (RH : rh d x1 = 2) by (unfold rh; rewrite KD; reflexivity). lia.
  - rewrite (gtot_put g _ _ _ _ c st' O []) by (auto; destruct (n_dst g c p) eqn:D; apply (cred_size s k c p v n V NE _ _ D)).
    rewrite (gtot_cwire g _ _ _ s k _ NE). cbn [sum fold_right].
    assert (MC : sum (fun o => rw (on_wire g c o) + sum (fun _ => 1) (on_credit g c o) - rh c o) O <= - Z.of_nat (length O)).
    { apply moves_cost; [exact SC|]. intros o OI. apply (i_held _ _ _ V c o); [|exact SC].
      rewrite <- P. apply in_app_iff. auto. }
    unfold sum in *. lia.
  - unfold gtot. cbn [wires cwires comps].
    rewrite (sum_change (fun y => sum (rh y) (concat (queues (if (y =? c)%nat then st' else comps s y))))
       (fun y => sum (rh y) (concat (queues (comps s y)))) c);
      [|split; [lia|apply (arr_size s c k x V KC NE)]
       |intros y N; destruct (Nat.eqb_spec y c); [contradiction|reflexivity]].
    rewrite Nat.eqb_refl, sum_app.
    pose proof (sum_perm _ (rh c) _ _ P) as SP. rewrite sum_cons in SP.
    assert (RH : rh c x = 2) by (unfold rh; rewrite KC; reflexivity).
    pose proof (credit_one c x). lia.
  - exfalso. apply (NI c id b). reflexivity.
Qed.

Lemma run_cost : forall es s s', inv g s none -> all_obey rank g s es -> run g s es = Some s' ->
  (forall c id b, ~ In (EInj c id b) es) -> Z.of_nat (length es) <= potential s.
Proof.
  induction es as [|e es IH]; intros s s' V OB E NI; cbn [run all_obey] in *; [apply potential_nonneg|].
  destruct (gstep g s e) as [s1|] eqn:G; [|discriminate]. destruct OB as [O1 O2].
  pose proof (IH s1 s' (step_inv g W s e s1 V G) O2 E ltac:(intros c id b X; apply (NI c id b); right; exact X)).
  pose proof (step_cost s e s1 V O1 G ltac:(intros c id b X; apply (NI c id b); left; exact X)).
  cbn [length]. lia.
Qed.
End Del.
