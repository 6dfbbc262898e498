(** Properties of the inter-rank buffers: C11, C74. *)
From Coq Require Import List Arith NArith Bool Lia.
From Verif Require Import SerModel SerSpec SerProof CbModel CbProof.
Import ListNotations.

(** ** C11 *)

(** At any moment, whatever the threads have done: a message that has its space lies
    inside its buffer, and two messages in one buffer do not overlap. *)
Theorem C11_space_disjoint :
  forall bsize n m acts c, 0 < bsize -> run bsize (fresh n m) acts = Some c ->
  forall i j mi mj p, i <> j -> nth_error (msgs c) i = Some mi -> nth_error (msgs c) j = Some mj ->
  loc mi = Some p -> loc mj = Some p ->
  (stop mi <= start mj \/ stop mj <= start mi) /\
  match p with
  | Main => stop mi <= n
  | Back k => exists b, nth_error (backs c) k = Some b /\ stop mi <= bmax b
  end.
Proof.
  intros bsize n m acts c B R i j mi mj p Nij Ni Nj Li Lj.
  destruct (run_inv bsize B acts _ _ (fresh_inv n m) ltac:(intros k b K; destruct k; discriminate) R) as [I _].
  assert (Cp: cap c = n).
  { assert (G: forall l c0 c1, run bsize c0 l = Some c1 -> cap c1 = cap c0).
    { induction l as [|a l IH]; intros c0 c1 H; simpl in H; [congruence|].
      destruct (step bsize c0 a) as [c2|] eqn:E; [|discriminate]. rewrite (IH c2 c1 H). apply (cap_step _ _ _ _ E). }
    apply (G _ _ _ R). }
  split.
  - destruct (Nat.lt_trichotomy i j) as [Q|[Q|Q]]; [left|lia|right].
    + apply (contig_order _ _ _ _ _ _ _ (i_contig c I) Q Ni Nj).
    + apply (contig_order _ _ _ _ _ _ _ (i_contig c I) Q Nj Ni).
  - destruct p as [|k].
    + rewrite <- Cp. apply (i_main c I i mi Ni Li).
    + destruct (i_back c I i mi k Ni Li) as (_ & (b & Nb & Fb) & _). exists b. split; [exact Nb|].
      destruct (i_fill c I k b Nb) as [A _]. lia.
Qed.
Print Assumptions C11_space_disjoint.

Lemma contig_aligned : forall l s e i mi, contig s l e -> s mod 64 = 0 ->
  (forall x, In x l -> length (data x) mod 64 = 0) -> nth_error l i = Some mi -> start mi mod 64 = 0.
Proof.
  induction l as [|x l IH]; intros s e i mi C Zs D N; [destruct i; discriminate|].
  destruct C as [C1 C2]. destruct i; simpl in N.
  - injection N as <-. rewrite C1. exact Zs.
  - apply (IH (stop x) e i mi C2); auto.
    + unfold stop. rewrite Nat.add_mod by lia. rewrite C1, Zs, (D x (or_introl eq_refl)). reflexivity.
    + intros y Y. apply D. right. exact Y.
Qed.

(** Offsets are multiples of 64 when the sizes are. *)
Theorem C11_aligned :
  forall bsize n m acts c, 0 < bsize -> run bsize (fresh n m) acts = Some c ->
  (forall d, In d (reserved acts) -> length d mod 64 = 0) ->
  forall i mi, nth_error (msgs c) i = Some mi -> start mi mod 64 = 0.
Proof.
  intros bsize n m acts c B R A i mi N.
  destruct (run_inv bsize B acts _ _ (fresh_inv n m) ltac:(intros k b K; destruct k; discriminate) R) as [I _].
  assert (D: forall x, In x (msgs c) -> length (data x) mod 64 = 0).
  { intros x X. apply A. pose proof (run_data bsize acts _ _ R) as Q. simpl in Q. rewrite <- Q. apply in_map, X. }
  apply (contig_aligned _ _ _ _ _ (i_contig c I) eq_refl D N).
Qed.
Print Assumptions C11_aligned.

(** When every thread is done, the bytes sent are all messages in the order of their
    reservations, whichever buffers they went through and in whatever order the threads
    took the lock and wrote. *)
Theorem C11_nothing_lost :
  forall bsize n m acts c, 0 < bsize -> run bsize (fresh n m) acts = Some c ->
  (forall d, In d (reserved acts) -> d <> []) ->
  (forall x, In x (msgs c) -> written x = true) ->
  sent c = concat (reserved acts).
Proof.
  intros bsize n m acts c B R NE AW.
  destruct (run_inv bsize B acts _ _ (fresh_inv n m) ltac:(intros k b K; destruct k; discriminate) R) as [I _].
  pose proof (run_data bsize acts _ _ R) as Q. simpl in Q.
  rewrite (sent_data c I); [rewrite Q; reflexivity| |].
  - intros i x N. assert (E: In (data x) (reserved acts)) by (rewrite <- Q; apply in_map; apply (nth_error_In _ _ N)).
    apply NE in E. destruct (data x); [contradiction|simpl; lia].
  - intros i x N. apply AW. apply (nth_error_In _ _ N).
Qed.
Print Assumptions C11_nothing_lost.

(** The next window starts from an empty buffer that is at least as large. *)
Theorem C11_reset :
  forall c m, 0 < cap c -> exists n' m', reset c m = fresh n' m' /\ cap c <= n'.
Proof.
  intros c m P. unfold reset. destruct (backs c).
  - exists (cap c), (store c). split; [reflexivity|lia].
  - cbv zeta. set (r := Nat.min (Nat.max 2 (allocs c / cap c)) 8). exists (cap c * r), m. split; [reflexivity|].
    assert (2 <= r) by (unfold r; lia). nia.
Qed.
Print Assumptions C11_reset.

(** Three messages, capacity 100, backups of 120: the first fits, the other two go to
    two different backups, taking the lock in the wrong order. *)
Definition ex_acts : list act :=
  [Reserve (repeat 1%N 64); Reserve (repeat 2%N 40); Settle 0 (fun _ => 9%N); Reserve (repeat 3%N 64);
   Settle 2 (fun _ => 9%N); Settle 1 (fun _ => 9%N); Write 2; Write 1; Write 0].

Example C11_run :
  option_map (fun c => (map loc (msgs c), sent c)) (run 30 (fresh 100 (fun _ => 9%N)) ex_acts) =
  Some ([Some Main; Some (Back 0); Some (Back 0)], concat (reserved ex_acts)).
Proof. vm_compute. reflexivity. Qed.

Definition ex_acts2 : list act :=
  [Reserve (repeat 1%N 64); Reserve (repeat 2%N 40); Settle 1 (fun _ => 9%N); Settle 0 (fun _ => 9%N);
   Reserve (repeat 3%N 64); Reserve (repeat 4%N 800); Settle 3 (fun _ => 9%N); Settle 2 (fun _ => 9%N);
   Write 2; Write 1; Write 0; Write 3].

Example C11_run2 :
  option_map (fun c => (map loc (msgs c), sent c)) (run 30 (fresh 100 (fun _ => 9%N)) ex_acts2) =
  Some ([Some Main; Some (Back 0); Some (Back 0); Some (Back 1)], concat (reserved ex_acts2)).
Proof. vm_compute. reflexivity. Qed.

(** ** C74: events of a window *)

Lemma align64_spec n : n <= align64 n /\ align64 n mod 64 = 0 /\ align64 n < n + 64.
Proof.
  unfold align64. destruct (n mod 64 =? 0) eqn:E.
  - apply Nat.eqb_eq in E. lia.
  - apply Nat.eqb_neq in E. pose proof (Nat.mod_upper_bound n 64 ltac:(lia)). split; [lia|]. split; [|lia].
    pose proof (Nat.div_mod n 64 ltac:(lia)). replace (n + 64 - n mod 64) with ((n / 64 + 1) * 64) by lia.
    apply Nat.mod_mul. lia.
Qed.

(** An event as sendEvent gets it: the header members have their sizes and the event
    object can be transferred. *)
Definition sendable (reg : registry) (ltb : val -> val -> bool) (e : ipc) : Prop :=
  length (thread e) = 4 /\ length (time e) = 16 /\ length (seqnum e) = 4 /\ length (link e) = 8 /\
  length (rank e) = 4 /\ holds reg ltb TPtr VUndef (ev e).

Lemma send_spec reg ltb e : sendable reg ltb e ->
  exists n bs depth, ser_size reg e = Some n /\ send_event reg e = Some (n, bs) /\ align64 (length bs) = n /\ bs <> [] /\
    forall f rest, depth <= f -> unpack reg ltb f ipc_ty raw_ipc (bs ++ rest) = Some (ipc_val n e, rest).
Proof.
  intros (H1 & H2 & H3 & H4 & H5 & H6).
  destruct (holds_good _ _ _ _ _ H6) as (b0 & _ & S0 & _ & _).
  set (n := align64 (overhead + length b0)).
  assert (Hn: ser_size reg e = Some n) by (unfold ser_size; rewrite S0; reflexivity).
  assert (Hh: holds reg ltb ipc_ty raw_ipc (ipc_val n e)).
  { unfold ipc_ty, raw_ipc, ipc_val. constructor. repeat constructor; auto. }
  destruct (holds_good _ _ _ _ _ Hh) as (bs & d & S & P & U).
  assert (L: length bs = overhead + length b0).
  { unfold ipc_ty, ipc_val in S. cbn [size] in S. cbn [sum_fields] in S. cbn [size] in S.
    rewrite enc_length, H1, H2, H3, H4, H5 in S. cbn [Nat.eqb bind] in S. rewrite S0 in S. cbn [bind add] in S.
    injection S as S. unfold overhead. lia. }
  exists n, bs, d. split; [exact Hn|]. split.
  - unfold send_event. rewrite Hn. rewrite (P n []); [reflexivity|]. simpl. rewrite L. apply align64_spec.
  - split; [rewrite L; reflexivity|]. split; [intros ->; simpl in L; discriminate|exact U].
Qed.

(** The space a thread fills for an event: the packed bytes, then anything. *)
Definition carries (reg : registry) (e : ipc) (d : list byte) : Prop :=
  exists n bs pad, send_event reg e = Some (n, bs) /\ d = bs ++ pad /\ length d = n.

Lemma receive_all reg ltb : forall es ds, Forall (sendable reg ltb) es -> Forall2 (carries reg) es ds ->
  exists depth, forall f fuel, depth <= f -> length ds <= fuel ->
    receive reg ltb f fuel (concat ds) =
    Some (map (fun e => ipc_val (match ser_size reg e with Some n => n | None => 0 end) e) es).
Proof.
  intros es ds F C. revert F. induction C as [|e d es ds Hc C IH]; intro F.
  - exists 0. intros f [|fuel] _ _; reflexivity.
  - inversion F as [|? ? Fe Fes]; subst. destruct (IH Fes) as (d1 & R1).
    destruct (send_spec reg ltb e Fe) as (n & bs & d0 & Hn & Hs & Ha & Hz & U).
    destruct Hc as (n' & bs' & pad & Hs' & -> & Hl). rewrite Hs in Hs'. injection Hs' as <- <-.
    exists (Nat.max d0 d1). intros f fuel Lf Lfu. destruct fuel as [|fuel]; [simpl in Lfu; lia|].
    cbn [concat map]. set (buf := (bs ++ pad) ++ concat ds).
    assert (Bz: buf <> []) by (unfold buf; destruct bs; [contradiction|discriminate]).
    assert (Rd: read_event reg ltb f buf = Some (ipc_val n e, n)).
    { unfold read_event, buf. rewrite <- app_assoc, U by lia. f_equal. f_equal.
      rewrite !app_length. replace (length bs + (length pad + length (concat ds)) - (length pad + length (concat ds))) with (length bs) by lia.
      exact Ha. }
    assert (Sk: skipn n buf = concat ds).
    { unfold buf. rewrite <- Hl, skipn_app, Nat.sub_diag, skipn_all. reflexivity. }
    assert (Ln: length buf <? n = false) by (apply Nat.ltb_ge; unfold buf; rewrite app_length; lia).
    rewrite Hn. clearbody buf. destruct buf as [|b buf']; [contradiction|].
    cbn [receive]. rewrite Rd, Ln, Sk, R1; [reflexivity|lia|simpl in Lfu; lia].
Qed.

Lemma carries_length reg : forall es ds, Forall2 (carries reg) es ds -> length es = length ds.
Proof. induction 1; simpl; congruence. Qed.

(** End to end: threads send events [es] to one rank during a window, through buffers
    that may overflow. The bytes sent decode at the receiver to exactly these events,
    headers included, in the order of the reservations. (MPI carries the bytes.) *)
Theorem C74_window_arrives :
  forall reg ltb bsize n m acts c es, 0 < bsize ->
  run bsize (fresh n m) acts = Some c ->
  (forall x, In x (msgs c) -> written x = true) ->
  Forall (sendable reg ltb) es ->
  Forall2 (carries reg) es (reserved acts) ->
  exists depth, forall f fuel, depth <= f -> length es <= fuel ->
    receive reg ltb f fuel (sent c) =
    Some (map (fun e => ipc_val (match ser_size reg e with Some k => k | None => 0 end) e) es).
Proof.
  intros reg ltb bsize n m acts c es B R AW F C.
  rewrite (C11_nothing_lost bsize n m acts c B R); [| |exact AW].
  - destruct (receive_all reg ltb es _ F C) as (d & H). exists d. intros f fuel L1 L2. apply H; [exact L1|].
    rewrite <- (carries_length _ _ _ C). exact L2.
  - intros d D. clear - C F D. induction C as [|e d' es ds Hc C IH]; [destruct D|].
    inversion F as [|? ? Fe Fes]; subst. destruct D as [<-|D]; [|apply IH; auto].
    destruct (send_spec reg ltb e Fe) as (k & bs & d0 & _ & Hs & _ & Hz & _).
    destruct Hc as (n' & bs' & pad & Hs' & -> & _). rewrite Hs in Hs'. injection Hs' as <- <-.
    destruct bs; [contradiction|discriminate].
Qed.
Print Assumptions C74_window_arrives.

(** Sending always succeeds: the packed event fits the space asked for. *)
Theorem C74_send_fits :
  forall reg ltb e, sendable reg ltb e -> exists n bs, send_event reg e = Some (n, bs) /\ length bs <= n /\ n mod 64 = 0.
Proof.
  intros reg ltb e H. destruct (send_spec reg ltb e H) as (n & bs & d & _ & Hs & Ha & _).
  exists n, bs. rewrite <- Ha. split; [rewrite Ha; exact Hs|]. destruct (align64_spec (length bs)) as (A & B & _). auto.
Qed.
Print Assumptions C74_send_fits.

(** A credit event (three ints) sent twice, received twice. *)
Definition ex_credit : registry := fun c => if (c =? 3)%N then Some (combine credit_ty [VUndef; VUndef; VUndef]) else None.
Definition ex_ev (k : N) : ipc :=
  Ipc (enc 4 0) (enc 16 (100 + k)) (enc 4 k) (enc 8 5) (enc 4 1) (VObj 3 [VPrim (enc 4 64); VPrim (enc 4 k); VPrim (enc 4 0)]).

Example C74_example : sendable ex_credit (fun _ _ => false) (ex_ev 1).
Proof. repeat split. eapply h_obj; [reflexivity|reflexivity|]. repeat constructor. Qed.

Example C74_run : exists b1 b2, send_event ex_credit (ex_ev 1) = Some (64, b1) /\ send_event ex_credit (ex_ev 2) = Some (64, b2) /\
  receive ex_credit (fun _ _ => false) 4 5 ((b1 ++ repeat 7%N 4) ++ (b2 ++ repeat 8%N 4)) =
  Some [ipc_val 64 (ex_ev 1); ipc_val 64 (ex_ev 2)].
Proof. eexists. eexists. split; [vm_compute; reflexivity|]. split; [vm_compute; reflexivity|]. vm_compute. reflexivity. Qed.
