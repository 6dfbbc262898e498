(** C56: the pooled allocator. *)
From Coq Require Import List Arith Bool Lia FinFun.
From Verif Require Import PlModel.
Import ListNotations.

Section Pool.
Variable sz : nat.
Hypothesis sz_pos : 0 < sz.

Lemma unit_spec : sz <= unit_size sz /\ unit_size sz mod line = 0.
Proof.
  unfold unit_size, line. pose proof (Nat.div_mod sz 64 ltac:(lia)). pose proof (Nat.mod_upper_bound sz 64 ltac:(lia)).
  destruct (Nat.eqb_spec (sz mod 64) 0); [lia|]. split; [lia|].
  replace (sz + (64 - sz mod 64)) with ((sz / 64 + 1) * 64) by lia. apply Nat.mod_mul. lia.
Qed.

(** A chunk of a slab. *)
Definition in_slab (s : nat * nat) (c : nat) : Prop :=
  fst s <= c /\ c + unit_size sz <= fst s + snd s /\ c mod line = 0 /\
  exists i, c = first_chunk (fst s) + i * unit_size sz.

Lemma first_spec base : base <= first_chunk base /\ first_chunk base mod line = 0 /\
  first_chunk base + num_chunks base * unit_size sz <= base + unit_size sz * increment.
Proof.
  destruct unit_spec as [U1 U2]. assert (U3: line <= unit_size sz).
  { unfold line in *. pose proof (Nat.div_mod (unit_size sz) 64 ltac:(lia)). lia. }
  unfold first_chunk, num_chunks, line, increment in *. pose proof (Nat.div_mod base 64 ltac:(lia)).
  pose proof (Nat.mod_upper_bound base 64 ltac:(lia)).
  destruct (Nat.eqb_spec (base mod 64) 0); [split; [lia|split; [assumption|nia]]|]. split; [lia|]. split; [|nia].
  replace (base + (64 - base mod 64)) with ((base / 64 + 1) * 64) by lia. apply Nat.mod_mul. lia.
Qed.

Lemma chunk_in base c : In c (chunks sz base) -> in_slab (base, unit_size sz * increment) c.
Proof.
  intro H. apply in_map_iff in H. destruct H as (i & <- & I). apply in_seq in I.
  destruct (first_spec base) as (A & B & C). destruct unit_spec as [U1 U2]. unfold in_slab. cbn [fst snd].
  split; [nia|]. split; [nia|]. split; [|exists i; reflexivity].
  rewrite Nat.add_mod, Nat.mul_mod, U2, B by (unfold line; lia). rewrite Nat.mul_0_r. reflexivity.
Qed.

Lemma chunks_nodup base : NoDup (chunks sz base).
Proof.
  unfold chunks. apply Injective_map_NoDup; [|apply seq_NoDup].
  intros i j E. destruct unit_spec as [U1 _]. nia.
Qed.

(** Invariant: no chunk is anywhere twice, all are chunks of slabs, slabs are apart. *)
Record pinv (p : pool) : Prop := {
  v_live : NoDup (live p);
  v_avail : forall t, NoDup (avail p t);
  v_cross : forall t u c, In c (avail p t) -> In c (avail p u) -> t = u;
  v_free : forall t c, In c (avail p t) -> ~ In c (live p);
  v_slab : forall c, (In c (live p) \/ exists t, In c (avail p t)) -> exists s, In s (slabs p) /\ in_slab s c;
  v_apart : forall s s', In s (slabs p) -> In s' (slabs p) -> s = s' \/ apart (fst s) (snd s) (fst s') (snd s');
}.

Lemma upd_same f t l : upd_avail f t l t = l.
Proof. unfold upd_avail. rewrite Nat.eqb_refl. reflexivity. Qed.
Lemma upd_other f t l u : u <> t -> upd_avail f t l u = f u.
Proof. unfold upd_avail. intro H. apply Nat.eqb_neq in H. rewrite H. reflexivity. Qed.

Lemma in_upd f t l u c : In c (upd_avail f t l u) -> (u = t /\ In c l) \/ (u <> t /\ In c (f u)).
Proof.
  destruct (Nat.eq_dec u t) as [->|N]; [rewrite upd_same; auto|rewrite upd_other by exact N; auto].
Qed.

Lemma grow_inv t base p : pinv p -> avail p t = [] ->
  (forall s, In s (slabs p) -> apart base (unit_size sz * increment) (fst s) (snd s)) ->
  pinv (grow sz t base p).
Proof.
  intros [I1 I2 I3 I4 I5 I6] E A.
  assert (New: forall c, In c (chunks sz base) -> ~ (In c (live p) \/ exists t, In c (avail p t))).
  { intros c C X. apply chunk_in in C. destruct (I5 c X) as (s & Hs & Sc). specialize (A s Hs).
    destruct unit_spec as [U _]. destruct C as (C1 & C2 & _), Sc as (S1 & S2 & _). cbn [fst snd] in *. unfold apart in A. lia. }
  constructor; cbn [avail slabs live grow].
  - exact I1.
  - intro u. destruct (Nat.eq_dec u t) as [->|N]; [|rewrite upd_other by exact N; apply I2].
    rewrite upd_same, E, app_nil_r. apply NoDup_rev, chunks_nodup.
  - intros u v c Hu Hv. apply in_upd in Hu, Hv. rewrite E, app_nil_r in *. rewrite <- in_rev in *.
    destruct Hu as [[-> Hu]|[Nu Hu]], Hv as [[-> Hv]|[Nv Hv]]; auto.
    + exfalso. apply (New c Hu). right. eauto.
    + exfalso. apply (New c Hv). right. eauto.
    + apply (I3 u v c Hu Hv).
  - intros u c Hu. apply in_upd in Hu. rewrite E, app_nil_r in *. rewrite <- in_rev in *.
    destruct Hu as [[-> Hu]|[Nu Hu]]; [intro X; apply (New c Hu); auto|apply (I4 u c Hu)].
  - intros c [X|[u Hu]].
    + destruct (I5 c (or_introl X)) as (s & Hs & Sc). exists s. split; [right; exact Hs|exact Sc].
    + apply in_upd in Hu. rewrite E, app_nil_r in *. rewrite <- in_rev in *.
      destruct Hu as [[-> Hu]|[Nu Hu]].
      * eexists. split; [left; reflexivity|]. apply chunk_in, Hu.
      * destruct (I5 c (or_intror (ex_intro _ u Hu))) as (s & Hs & Sc). exists s. split; [right; exact Hs|exact Sc].
  - intros s s' [<-|Hs] [<-|Hs']; auto.
    specialize (A s Hs). right. unfold apart in *. cbn [fst snd]. lia.
Qed.

Lemma pop_inv t p c p' : pinv p -> pop t p = Some (c, p') -> pinv p' /\ live p' = c :: live p /\ ~ In c (live p).
Proof.
  intros [I1 I2 I3 I4 I5 I6] H. unfold pop in H. destruct (avail p t) as [|x r] eqn:E; [discriminate|]. injection H as <- <-.
  assert (X: In x (avail p t)) by (rewrite E; left; reflexivity).
  pose proof (I2 t) as N. rewrite E in N. inversion N as [|? ? N1 N2]; subst.
  split; [|split; [reflexivity|apply (I4 t x X)]].
  constructor; cbn [avail slabs live].
  - constructor; [apply (I4 t x X)|exact I1].
  - intro u. destruct (Nat.eq_dec u t) as [->|Nu]; [rewrite upd_same; exact N2|rewrite upd_other by exact Nu; apply I2].
  - intros u v c Hu Hv. apply in_upd in Hu, Hv.
    destruct Hu as [[-> Hu]|[Nu Hu]], Hv as [[-> Hv]|[Nv Hv]]; auto.
    + apply (I3 t v c); [rewrite E; right; exact Hu|exact Hv].
    + apply (I3 u t c); [exact Hu|rewrite E; right; exact Hv].
    + apply (I3 u v c Hu Hv).
  - intros u c Hu. apply in_upd in Hu. destruct Hu as [[-> Hu]|[Nu Hu]].
    + intros [->|L]; [contradiction|]. apply (I4 t c); [rewrite E; right; exact Hu|exact L].
    + intros [->|L]; [|apply (I4 u c Hu L)]. apply Nu, (I3 u t c Hu X).
  - intros c [[<-|L]|[u Hu]].
    + apply I5. right. exists t. exact X.
    + apply I5. left. exact L.
    + apply I5. right. apply in_upd in Hu. destruct Hu as [[-> Hu]|[Nu Hu]]; [exists t; rewrite E; right; exact Hu|exists u; exact Hu].
  - exact I6.
Qed.

Lemma in_remove1 c x l : In x (remove1 c l) -> In x l.
Proof.
  induction l as [|y l IH]; simpl; [auto|]. destruct (Nat.eqb_spec y c); [auto|]. intros [H|H]; auto.
Qed.

Lemma remove1_nodup c l : NoDup l -> NoDup (remove1 c l) /\ ~ In c (remove1 c l).
Proof.
  induction l as [|y l IH]; intro N; simpl; [split; [constructor|auto]|]. inversion N as [|? ? N1 N2]; subst.
  destruct (IH N2) as [A B]. destruct (Nat.eqb_spec y c) as [->|E]; [split; assumption|]. split.
  - constructor; [|exact A]. intro X. apply N1, (in_remove1 _ _ _ X).
  - intros [X|X]; [contradiction|apply B, X].
Qed.

Lemma release_inv t c p : pinv p -> In c (live p) -> pinv (release t c p).
Proof.
  intros [I1 I2 I3 I4 I5 I6] L. destruct (remove1_nodup c (live p) I1) as [R1 R2].
  assert (F: forall u, ~ In c (avail p u)) by (intros u X; apply (I4 u c X L)).
  constructor; cbn [avail slabs live release].
  - exact R1.
  - intro u. destruct (Nat.eq_dec u t) as [->|Nu]; [rewrite upd_same|rewrite upd_other by exact Nu; apply I2].
    constructor; [apply F|apply I2].
  - intros u v x Hu Hv. apply in_upd in Hu, Hv.
    destruct Hu as [[-> Hu]|[Nu Hu]], Hv as [[-> Hv]|[Nv Hv]]; auto.
    + destruct Hu as [<-|Hu]; [destruct (F _ Hv)|apply (I3 _ _ _ Hu Hv)].
    + destruct Hv as [<-|Hv]; [destruct (F _ Hu)|apply (I3 _ _ _ Hu Hv)].
    + apply (I3 u v x Hu Hv).
  - intros u x Hu X. apply in_upd in Hu. destruct Hu as [[-> [<-|Hu]]|[Nu Hu]].
    + contradiction.
    + apply (I4 t x Hu), (in_remove1 _ _ _ X).
    + apply (I4 u x Hu), (in_remove1 _ _ _ X).
  - intros x [X|[u Hu]].
    + apply I5. left. apply (in_remove1 _ _ _ X).
    + apply in_upd in Hu. destruct Hu as [[-> [<-|Hu]]|[Nu Hu]]; apply I5; eauto.
  - exact I6.
Qed.

Lemma alloc_inv t base p c p' : pinv p ->
  (forall s, In s (slabs p) -> apart base (unit_size sz * increment) (fst s) (snd s)) ->
  allocate sz t base p = Some (c, p') -> pinv p' /\ live p' = c :: live p /\ ~ In c (live p).
Proof.
  intros I A H. unfold allocate in H. destruct (avail p t) as [|x r] eqn:E.
  - destruct (pop_inv t _ c p' (grow_inv t base p I E A) H) as (P & Q & R). cbn [live grow] in *. auto.
  - apply (pop_inv t p c p' I H).
Qed.

Lemma reach_inv p : reach sz p -> pinv p.
Proof.
  induction 1 as [|p o p' R IH S].
  - constructor; cbn [avail slabs live]; try constructor; try (intros; contradiction).
    intros c [[]|[t []]].
  - inversion S; subst; [eapply alloc_inv; eauto|apply release_inv; auto].
Qed.

(** Two chunks in different places do not overlap. *)
Lemma distinct_apart p c d : pinv p -> c <> d ->
  (exists s, In s (slabs p) /\ in_slab s c) -> (exists s, In s (slabs p) /\ in_slab s d) -> apart c sz d sz.
Proof.
  intros I N (s & S1 & S2) (s' & S1' & S2'). destruct unit_spec as [U _].
  destruct (v_apart p I s s' S1 S1') as [->|A].
  - destruct S2 as (_ & _ & _ & i & ->), S2' as (_ & _ & _ & j & ->). unfold apart.
    destruct (Nat.lt_trichotomy i j) as [Q|[Q|Q]]; [left|subst; contradiction|right]; nia.
  - destruct S2 as (A1 & A2 & _), S2' as (B1 & B2 & _). unfold apart in *. lia.
Qed.

End Pool.

(** Allocation always succeeds, and the chunk is aligned, lies within a block obtained
    from the system and overlaps no chunk in use. *)
Theorem C56_alloc :
  forall sz p t base, 0 < sz -> reach sz p ->
  (forall s, In s (slabs p) -> apart base (unit_size sz * increment) (fst s) (snd s)) ->
  exists c p', allocate sz t base p = Some (c, p') /\ c mod 64 = 0 /\
    (exists s, In s (slabs p') /\ fst s <= c /\ c + sz <= fst s + snd s) /\
    live p' = c :: live p /\ forall d, In d (live p) -> apart c sz d sz.
Proof.
  intros sz p t base P R A. pose proof (reach_inv sz P p R) as I.
  assert (X: exists c p', allocate sz t base p = Some (c, p')).
  { unfold allocate, pop. destruct (avail p t) as [|x r] eqn:E; [|rewrite E; eauto].
    cbn [grow avail]. rewrite upd_same, E, app_nil_r.
    destruct (rev (chunks sz base)) as [|x r] eqn:Er; [|eauto].
    apply (f_equal (@length nat)) in Er. rewrite rev_length in Er. unfold chunks in Er. rewrite map_length, seq_length in Er.
    unfold num_chunks, increment in Er. destruct (base mod line =? 0); discriminate. }
  destruct X as (c & p' & H). destruct (alloc_inv sz P t base p c p' I A H) as (I' & L & F).
  exists c, p'. split; [exact H|].
  assert (In c (live p')) by (rewrite L; left; reflexivity).
  destruct (v_slab sz p' I' c (or_introl H0)) as (s & S1 & S2 & S3 & S4 & S5).
  destruct (unit_spec sz P) as [U _].
  split; [exact S4|]. split; [exists s; split; [exact S1|split; [exact S2|lia]]|]. split; [exact L|].
  intros d D. apply (distinct_apart sz P p' c d I').
  - intros ->. contradiction.
  - apply (v_slab sz p' I'). left. exact H0.
  - apply (v_slab sz p' I'). left. rewrite L. right. exact D.
Qed.
Print Assumptions C56_alloc.

(** At any time any two chunks in use are disjoint. *)
Theorem C56_disjoint :
  forall sz p, 0 < sz -> reach sz p -> forall i j c d, i <> j ->
  nth_error (live p) i = Some c -> nth_error (live p) j = Some d -> apart c sz d sz.
Proof.
  intros sz p P R i j c d N Hi Hj. pose proof (reach_inv sz P p R) as I.
  apply (distinct_apart sz P p c d I).
  - intros ->. apply N. pose proof (proj1 (NoDup_nth_error (live p)) (v_live sz p I)) as Q.
    apply Q; [apply nth_error_Some; congruence|congruence].
  - apply (v_slab sz p I). left. apply (nth_error_In _ _ Hi).
  - apply (v_slab sz p I). left. apply (nth_error_In _ _ Hj).
Qed.
Print Assumptions C56_disjoint.

(** Thread 1 frees a chunk of thread 0 and gets it back. *)
Example C56_reuse :
  match allocate 8 0 0 (Pool (fun t => if t =? 0 then [192; 128] else []) [(64, 192)] [64]) with
  | Some (c, p) => (c, live p, option_map fst (allocate 8 1 0 (release 1 c p)))
  | None => (0, [], None)
  end = (192, [192; 64], Some 192).
Proof. vm_compute. reflexivity. Qed.

(** Where the chunks of a slab at an unaligned address start. *)
Example C56_unaligned : first_chunk 1000 = 1024 /\ num_chunks 1000 = 511 /\ unit_size 100 = 128.
Proof. repeat split. Qed.

Example C56_reachable : forall base : nat, exists p c, reach 8 p /\ live p = [c].
Proof.
  intro base. destruct (C56_alloc 8 (Pool (fun _ => []) [] []) 0 base) as (c & p' & H & _ & _ & L & _);
    [apply Nat.lt_0_succ|constructor|intros s []|].
  exists p', c. split; [|exact L]. eapply r_step; [constructor|]. apply (s_new 8 0 base _ c p'); [intros s []|exact H].
Qed.
