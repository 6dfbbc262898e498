(* C46: what the compute schedulers guarantee about cores. *)
From Coq Require Import List ZArith Bool Arith Lia.
From Verif Require Import ListFacts CpModel.
Import ListNotations.

(* ================= the cpuset scheduler ================= *)

(* Core i is in the mask *)
Definition has (m : Z) (i : nat) : bool := Z.testbit m (Z.of_nat i).

Lemma has_bit : forall i j, i < 31 -> has (bit i) j = Nat.eqb i j.
Proof.
  intros i j H. unfold has, bit. rewrite Nat.mod_small by lia.
  destruct (Nat.eqb_spec i 31); [lia|].
  rewrite Z.pow2_bits_eqb by lia.
  destruct (Nat.eqb_spec i j) as [->|N]; [apply Z.eqb_refl|].
  apply Z.eqb_neq. lia.
Qed.

Lemma land_bit0 : forall v i, i < 31 -> Z.eqb (Z.land v (bit i)) 0 = negb (has v i).
Proof.
  intros v i H. destruct (has v i) eqn:E; cbn.
  - apply Z.eqb_neq. intro K.
    assert (X : has (Z.land v (bit i)) i = true)
      by (unfold has in *; rewrite Z.land_spec, E; fold (has (bit i) i); rewrite has_bit, Nat.eqb_refl by lia; reflexivity).
    rewrite K in X. unfold has in X. rewrite Z.bits_0 in X. discriminate.
  - apply Z.eqb_eq. apply Z.bits_inj'. intros n Hn. rewrite Z.land_spec, Z.bits_0.
    replace n with (Z.of_nat (Z.to_nat n)) by lia. fold (has (bit i) (Z.to_nat n)). rewrite has_bit by lia.
    destruct (Nat.eqb_spec i (Z.to_nat n)) as [<-|N]; [unfold has in E; rewrite E; reflexivity|apply andb_false_r].
Qed.

Lemma has_lor : forall a b i, has (Z.lor a b) i = has a i || has b i.
Proof. intros. apply Z.lor_spec. Qed.
Lemma has_land : forall a b i, has (Z.land a b) i = has a i && has b i.
Proof. intros. apply Z.land_spec. Qed.
Lemma has_lnot : forall a i, has (Z.lnot a) i = negb (has a i).
Proof. intros. apply Z.lnot_spec. lia. Qed.

(* A thread's list and mask of cores agree. *)
Definition cores_ok (nc : nat) (c : cores) : Prop :=
  NoDup (c_list c) /\ (forall i, In i (c_list c) -> i < nc) /\
  (forall i, i < nc -> (has (c_mask c) i = true <-> In i (c_list c))).

Lemma add_ok : forall nc c i, nc <= 31 -> cores_ok nc c -> i < nc -> ~ In i (c_list c) ->
  cores_ok nc (add_active c i).
Proof.
  intros nc c i N (A & B & C) Hi Ni. unfold add_active. split; [|split]; cbn [c_list c_mask].
  - apply nodup_app; auto; [constructor; [intros []|constructor]|intros y Hy [<-|[]]; auto].
  - intros j Hj. apply in_app_iff in Hj as [Hj|[<-|[]]]; auto.
  - intros j Hj. rewrite has_lor, has_bit, orb_true_iff, in_app_iff, C, Nat.eqb_eq by lia. cbn. tauto.
Qed.

Lemma pop_ok : forall nc c a i, nc <= 31 -> cores_ok nc c -> c_list c = a ++ [i] ->
  snd (pop_active c) = i /\ c_list (fst (pop_active c)) = a /\ cores_ok nc (fst (pop_active c)).
Proof.
  intros nc c a i N (A & B & C) E. unfold pop_active. cbn [fst snd c_list].
  rewrite E, last_last, removelast_last. split; [reflexivity|split; [reflexivity|]].
  rewrite E in A. apply nodup_app_iff in A as (A1 & _ & A3).
  assert (Hi : i < nc) by (apply B; rewrite E; apply in_app_iff; right; left; reflexivity).
  split; [|split]; cbn [c_list c_mask].
  - exact A1.
  - intros j Hj. apply B. rewrite E. apply in_app_iff. auto.
  - intros j Hj. rewrite has_land, has_lnot, has_bit, andb_true_iff, negb_true_iff, C, E, in_app_iff, Nat.eqb_neq by lia.
    cbn. split.
    + intros [[H|[H|[]]] H1]; [exact H|congruence].
    + intros H. split; [left; exact H|]. intros ->. apply (A3 j); [exact H|left; reflexivity].
Qed.

Lemma pop_times_ok : forall nc l c a, nc <= 31 -> cores_ok nc c -> c_list c = a ++ l ->
  c_list (pop_times (length l) c) = a /\ cores_ok nc (pop_times (length l) c).
Proof.
  intros nc l. induction l as [|x l IH] using rev_ind; intros c a N O E.
  - rewrite app_nil_r in E. cbn. auto.
  - rewrite app_length, Nat.add_comm. cbn [length plus pop_times]. rewrite app_assoc in E.
    destruct (pop_ok nc c _ _ N O E) as (_ & E1 & O1). apply IH; auto.
Qed.

Lemma search_ok : forall nc valid is need c, nc <= 31 -> cores_ok nc c -> NoDup is ->
  (forall i, In i is -> i < nc) -> (forall i, In i is -> has valid i = true -> ~ In i (c_list c)) ->
  let l := firstn need (filter (has valid) is) in
  let r := u_search valid is need c in
  c_list (fst r) = c_list c ++ l /\ cores_ok nc (fst r) /\ length l + snd r = need.
Proof.
  intros nc valid is. induction is as [|i is IH]; intros need c N O D B V.
  - destruct need; cbn; rewrite app_nil_r; auto.
  - destruct need as [|k]; [cbn; rewrite app_nil_r; auto|].
    inversion D as [|? ? D1 D2]; subst.
    assert (Hi : i < nc) by (apply B; left; reflexivity).
    cbn zeta. cbn [u_search filter]. rewrite land_bit0 by lia.
    destruct (has valid i) eqn:E; cbn [negb].
    + destruct (IH k (add_active c i)) as (R1 & R2 & R3); auto.
      * apply add_ok; auto. apply V; [left; reflexivity|exact E].
      * intros j Hj. apply B. right. exact Hj.
      * intros j Hj Hv Hin. unfold add_active in Hin. cbn in Hin. apply in_app_iff in Hin as [Hin|[<-|[]]].
        -- exact (V j (or_intror Hj) Hv Hin).
        -- auto.
      * cbn [firstn length]. split; [|split; [exact R2|lia]].
        rewrite R1. unfold add_active. cbn [c_list]. rewrite <- app_assoc. reflexivity.
    + apply IH; auto.
      * intros j Hj. apply B. right. exact Hj.
      * intros j Hj. apply V. right. exact Hj.
Qed.

(* The free cores thread t may use *)
Definition usable (nc : nat) (mask : nat -> Z) (s : cpuset) (t : nat) : list nat :=
  filter (fun i => has (mask t) i && has (u_avail s) i) (seq 0 nc).

Definition held (s : cpuset) (t : nat) : list nat := c_list (u_cores s t).

Record uinv (nc : nat) (mask : nat -> Z) (s : cpuset) : Prop := {
  ui_ok : forall t, cores_ok nc (u_cores s t);
  ui_busy : forall t i, In i (held s t) -> has (u_avail s) i = false;
  ui_mask : forall t i, In i (held s t) -> has (mask t) i = true;
  ui_one : forall t t' i, In i (held s t) -> In i (held s t') -> t = t';
  ui_all : forall i, i < nc -> has (u_avail s) i = false -> exists t, In i (held s t) }.

Lemma upd_at_same : forall A (f : nat -> A) t x, upd_at f t x t = x.
Proof. intros. unfold upd_at. now rewrite Nat.eqb_refl. Qed.
Lemma upd_at_other : forall A (f : nat -> A) t x u, u <> t -> upd_at f t x u = f u.
Proof. intros. unfold upd_at. destruct (Nat.eqb_spec u t); congruence. Qed.

Lemma firstn_incl : forall A n (l : list A) x, In x (firstn n l) -> In x l.
Proof. intros A n l x H. rewrite <- (firstn_skipn n l). apply in_app_iff. auto. Qed.

(* The same state up to the lists of cores *)
Definition same_cores (s s1 : cpuset) : Prop :=
  u_avail s1 = u_avail s /\ forall t, held s1 t = held s t.

Lemma allocate_ok : forall nc mask s n t, nc <= 31 -> uinv nc mask s ->
  let '(s1, ok) := u_allocate nc mask s n t in
  uinv nc mask s1 /\ u_pend s1 = u_pend s /\
  (forall i, i < nc -> has (u_avail s1) i = true -> has (u_avail s) i = true) /\
  (forall u, u <> t -> held s1 u = held s u) /\
  if ok then n <= length (usable nc mask s t) /\ held s1 t = held s t ++ firstn n (usable nc mask s t)
  else length (usable nc mask s t) < n /\ same_cores s s1.
Proof.
  intros nc mask s n t N I. unfold u_allocate.
  set (valid := Z.land (mask t) (u_avail s)).
  assert (EF : filter (has valid) (seq 0 nc) = usable nc mask s t).
  { unfold usable. apply filter_ext. intros i. unfold valid. apply has_land. }
  assert (UN : NoDup (usable nc mask s t)) by (apply NoDup_filter, seq_NoDup).
  assert (UI : forall i, In i (usable nc mask s t) -> i < nc /\ has (mask t) i = true /\ has (u_avail s) i = true).
  { intros i Hi. apply filter_In in Hi as [Hi H2]. apply in_seq in Hi. apply andb_true_iff in H2. split; [lia|exact H2]. }
  pose proof (search_ok nc valid (seq 0 nc) n (u_cores s t) N (ui_ok _ _ _ I t) (seq_NoDup _ _)) as SR.
  destruct (u_search valid (seq 0 nc) n (u_cores s t)) as [c miss]. cbn [fst snd] in SR.
  rewrite EF in SR. destruct SR as (R1 & R2 & R3).
  { intros i Hi. apply in_seq in Hi. lia. }
  { intros i Hi Hv Hin. unfold valid in Hv. rewrite has_land in Hv. apply andb_true_iff in Hv as [_ Hv].
    rewrite (ui_busy _ _ _ I t i Hin) in Hv. discriminate. }
  rewrite firstn_length in R3.
  destruct miss as [|miss].
  - assert (HL : forall u, held {| u_avail := Z.land (u_avail s) (Z.lnot (c_mask c));
             u_cores := upd_at (u_cores s) t c; u_pend := u_pend s |} u =
             if Nat.eqb u t then held s t ++ firstn n (usable nc mask s t) else held s u).
    { intros u. unfold held at 1. cbn [u_cores]. unfold upd_at. destruct (Nat.eqb_spec u t); [exact R1|reflexivity]. }
    assert (HA : forall i, i < nc -> has (Z.land (u_avail s) (Z.lnot (c_mask c))) i = true <->
        has (u_avail s) i = true /\ ~ In i (firstn n (usable nc mask s t))).
    { intros i Hi. rewrite has_land, has_lnot, andb_true_iff, negb_true_iff.
      destruct R2 as (_ & _ & R2). specialize (R2 i Hi). rewrite R1, in_app_iff in R2.
      split.
      - intros [H1 H2]. split; [exact H1|]. intros H3. rewrite (proj2 R2) in H2 by auto. discriminate.
      - intros [H1 H2]. split; [exact H1|]. destruct (has (c_mask c) i); [|reflexivity].
        destruct (proj1 R2 eq_refl) as [H3|H3]; [|contradiction].
        fold (held s t) in H3. rewrite (ui_busy _ _ _ I t i H3) in H1. discriminate. }
    assert (FI : forall i, In i (firstn n (usable nc mask s t)) -> i < nc /\ has (mask t) i = true /\ has (u_avail s) i = true).
    { intros i Hi. apply UI. eapply firstn_incl; eauto. }
    split; [|split; [reflexivity|split; [|split; [|split; [lia|]]]]].
    + split.
      * intros u. cbn [u_cores]. unfold upd_at. destruct (Nat.eqb_spec u t); [exact R2|apply (ui_ok _ _ _ I)].
      * intros u i. rewrite HL. cbn [u_avail]. intros Hi.
        assert (Hn : i < nc).
        { destruct (Nat.eqb u t); [apply in_app_iff in Hi as [Hi|Hi]; [|apply FI in Hi; lia]|];
          exact (proj1 (proj2 (ui_ok _ _ _ I _)) i Hi). }
        destruct (has (Z.land (u_avail s) (Z.lnot (c_mask c))) i) eqn:E; [|reflexivity].
        apply HA in E as [E1 E2]; [|exact Hn].
        destruct (Nat.eqb u t); [apply in_app_iff in Hi as [Hi|Hi]; [|contradiction]|];
        rewrite (ui_busy _ _ _ I _ i Hi) in E1; discriminate.
      * intros u i. rewrite HL. destruct (Nat.eqb_spec u t) as [->|]; [|apply (ui_mask _ _ _ I)].
        intros Hi. apply in_app_iff in Hi as [Hi|Hi]; [exact (ui_mask _ _ _ I _ _ Hi)|apply FI, Hi].
      * intros u v i. rewrite !HL.
        destruct (Nat.eqb_spec u t) as [->|Nu]; destruct (Nat.eqb_spec v t) as [->|Nv]; auto.
        -- intros Hu Hv. apply in_app_iff in Hu as [Hu|Hu]; [exact (ui_one _ _ _ I _ _ _ Hu Hv)|].
           apply FI in Hu as (_ & _ & Hu). rewrite (ui_busy _ _ _ I _ _ Hv) in Hu. discriminate.
        -- intros Hu Hv. apply in_app_iff in Hv as [Hv|Hv]; [exact (ui_one _ _ _ I _ _ _ Hu Hv)|].
           apply FI in Hv as (_ & _ & Hv). rewrite (ui_busy _ _ _ I _ _ Hu) in Hv. discriminate.
        -- intros Hu Hv. exact (ui_one _ _ _ I _ _ _ Hu Hv).
      * cbn [u_avail]. intros i Hi Hf.
        destruct (has (u_avail s) i) eqn:E.
        -- exists t. rewrite HL, Nat.eqb_refl. apply in_app_iff. right.
           destruct (in_dec Nat.eq_dec i (firstn n (usable nc mask s t))) as [|Nin]; [assumption|].
           rewrite (proj2 (HA i Hi)) in Hf; [discriminate|split; assumption].
        -- destruct (ui_all _ _ _ I i Hi E) as [u Hu]. exists u. rewrite HL.
           destruct (Nat.eqb_spec u t) as [->|]; [apply in_app_iff; auto|exact Hu].
    + cbn [u_avail]. intros i Hi H. apply HA in H; tauto.
    + intros u Hu. rewrite HL. destruct (Nat.eqb_spec u t); [contradiction|reflexivity].
    + rewrite HL, Nat.eqb_refl. reflexivity.
  - assert (LL : n - S miss = length (firstn n (usable nc mask s t))) by (rewrite firstn_length; lia).
    rewrite LL. destruct (pop_times_ok nc _ _ _ N R2 R1) as [P1 P2].
    assert (HL : forall u, held {| u_avail := u_avail s;
             u_cores := upd_at (u_cores s) t (pop_times (length (firstn n (usable nc mask s t))) c);
             u_pend := u_pend s |} u = held s u).
    { intros u. unfold held at 1. cbn [u_cores]. unfold upd_at. destruct (Nat.eqb_spec u t) as [->|]; [exact P1|reflexivity]. }
    split; [|split; [reflexivity|split; [auto|split; [auto|split; [lia|split; [reflexivity|exact HL]]]]]].
    split.
    + intros u. cbn [u_cores]. unfold upd_at. destruct (Nat.eqb_spec u t); [exact P2|apply (ui_ok _ _ _ I)].
    + intros u i. rewrite HL. apply (ui_busy _ _ _ I).
    + intros u i. rewrite HL. apply (ui_mask _ _ _ I).
    + intros u v i. rewrite !HL. apply (ui_one _ _ _ I).
    + intros i Hi Hf. destruct (ui_all _ _ _ I i Hi Hf) as [u Hu]. exists u. rewrite HL. exact Hu.
Qed.

Lemma filter_length_mono : forall A (f g : A -> bool) l, (forall x, In x l -> f x = true -> g x = true) ->
  length (filter f l) <= length (filter g l).
Proof.
  intros A f g l. induction l as [|x l IH]; intros H; cbn; [lia|].
  assert (IH' := IH (fun y Hy => H y (or_intror Hy))). specialize (H x (or_introl eq_refl)).
  destruct (f x); [rewrite H by reflexivity; cbn; lia|]. destruct (g x); cbn; lia.
Qed.

Lemma usable_mono : forall nc mask s s1 t,
  (forall i, i < nc -> has (u_avail s1) i = true -> has (u_avail s) i = true) ->
  length (usable nc mask s1 t) <= length (usable nc mask s t).
Proof.
  intros nc mask s s1 t H. apply filter_length_mono. intros i Hi E. apply in_seq in Hi.
  apply andb_true_iff in E as [E1 E2]. rewrite E1, H; auto. lia.
Qed.

(* Giving back the last n cores *)
Lemma give_ok : forall nc mask p t l s a, nc <= 31 -> uinv nc mask s -> held s t = a ++ l ->
  let r := u_give (length l) (u_avail s) (u_cores s t) in
  let s1 := {| u_avail := fst r; u_cores := upd_at (u_cores s) t (snd r); u_pend := p |} in
  uinv nc mask s1 /\ (forall u, held s1 u = if Nat.eqb u t then a else held s u).
Proof.
  intros nc mask p t l. induction l as [|x l IH] using rev_ind; intros s a N I E.
  - rewrite app_nil_r in E. cbn.
    assert (HL : forall u, held {| u_avail := u_avail s; u_cores := upd_at (u_cores s) t (u_cores s t); u_pend := p |} u
       = held s u).
    { intros u. unfold held, upd_at. cbn. destruct (Nat.eqb_spec u t) as [->|]; reflexivity. }
    split.
    + split.
      * intros u. cbn. unfold upd_at. destruct (Nat.eqb u t); apply (ui_ok _ _ _ I).
      * intros u i. rewrite HL. apply (ui_busy _ _ _ I).
      * intros u i. rewrite HL. apply (ui_mask _ _ _ I).
      * intros u v i. rewrite !HL. apply (ui_one _ _ _ I).
      * intros i Hi Hf. destruct (ui_all _ _ _ I i Hi Hf) as [u Hu]. exists u. rewrite HL. exact Hu.
    + intros u. rewrite HL. destruct (Nat.eqb_spec u t) as [->|]; [exact E|reflexivity].
  - rewrite app_length, Nat.add_comm. cbn [length plus u_give].
    rewrite app_assoc in E.
    destruct (pop_ok nc (u_cores s t) _ _ N (ui_ok _ _ _ I t) E) as (P1 & P2 & P3).
    destruct (pop_active (u_cores s t)) as [c1 i]. cbn [fst snd] in P1, P2, P3. subst x.
    set (s' := {| u_avail := Z.lor (u_avail s) (bit i); u_cores := upd_at (u_cores s) t c1; u_pend := [] |}).
    assert (Hit : In i (held s t)) by (rewrite E; apply in_app_iff; right; left; reflexivity).
    assert (Hi : i < nc) by exact (proj1 (proj2 (ui_ok _ _ _ I t)) i Hit).
    assert (HL : forall u, held s' u = if Nat.eqb u t then a ++ l else held s u).
    { intros u. unfold held at 1, s', upd_at. cbn. destruct (Nat.eqb u t); [exact P2|reflexivity]. }
    assert (HA : forall j, has (u_avail s') j = has (u_avail s) j || Nat.eqb i j).
    { intros j. unfold s'. cbn [u_avail]. rewrite has_lor, has_bit by lia. reflexivity. }
    assert (SUB : forall u j, In j (held s' u) -> In j (held s u)).
    { intros u j. rewrite HL. destruct (Nat.eqb_spec u t) as [->|]; [|auto].
      intros Hj. rewrite E. apply in_app_iff. auto. }
    assert (NI : forall u, ~ In i (held s' u)).
    { intros u Hu. pose proof (ui_one _ _ _ I _ _ _ (SUB _ _ Hu) Hit) as ->. rewrite HL, Nat.eqb_refl in Hu.
      pose proof (proj1 (ui_ok _ _ _ I t)) as ND. fold (held s t) in ND. rewrite E in ND.
      apply nodup_app_iff in ND as (_ & _ & ND). apply (ND i Hu). left. reflexivity. }
    assert (I' : uinv nc mask s').
    { split.
      - intros u. unfold s'. cbn [u_cores]. unfold upd_at. destruct (Nat.eqb u t); [exact P3|apply (ui_ok _ _ _ I)].
      - intros u j Hj. rewrite HA. rewrite (ui_busy _ _ _ I u j) by auto. cbn.
        apply Nat.eqb_neq. intros <-. exact (NI _ Hj).
      - intros u j Hj. apply (ui_mask _ _ _ I). auto.
      - intros u v j Hu Hv. apply (ui_one _ _ _ I u v j); auto.
      - intros j Hj Hf. rewrite HA in Hf. apply orb_false_iff in Hf as [H1 H2]. apply Nat.eqb_neq in H2.
        destruct (ui_all _ _ _ I j Hj H1) as [u Hu]. exists u. rewrite HL.
        destruct (Nat.eqb_spec u t) as [->|]; [|exact Hu].
        rewrite E in Hu. apply in_app_iff in Hu as [Hu|[Hu|[]]]; [exact Hu|contradiction]. }
    assert (E' : held s' t = a ++ l) by (rewrite HL, Nat.eqb_refl; reflexivity).
    destruct (IH s' a N I' E') as [R1 R2].
    assert (UC : u_cores s' t = c1) by (unfold s'; cbn; apply upd_at_same).
    rewrite UC in R1, R2. change (u_avail s') with (Z.lor (u_avail s) (bit i)) in R1, R2.
    destruct (u_give (length l) (Z.lor (u_avail s) (bit i)) c1) as [av c2]. cbn [fst snd] in *.
    assert (HL2 : forall u, held {| u_avail := av; u_cores := upd_at (u_cores s) t c2; u_pend := p |} u =
       held {| u_avail := av; u_cores := upd_at (u_cores s') t c2; u_pend := p |} u).
    { intros u. unfold held, s', upd_at. cbn. destruct (Nat.eqb u t); reflexivity. }
    split.
    + split.
      * intros u. pose proof (ui_ok _ _ _ R1 u) as O. unfold s', upd_at in *. cbn in *. destruct (Nat.eqb u t); exact O.
      * intros u j. rewrite HL2. apply (ui_busy _ _ _ R1).
      * intros u j. rewrite HL2. apply (ui_mask _ _ _ R1).
      * intros u v j. rewrite !HL2. apply (ui_one _ _ _ R1).
      * intros j Hj Hf. destruct (ui_all _ _ _ R1 j Hj Hf) as [u Hu]. exists u. rewrite HL2. exact Hu.
    + intros u. rewrite HL2, R2. destruct (Nat.eqb_spec u t); [reflexivity|].
      rewrite HL. destruct (Nat.eqb_spec u t); [contradiction|reflexivity].
Qed.

Definition stuck_pend (nc : nat) (mask : nat -> Z) (s : cpuset) (l : list request) : Prop :=
  forall n t, In (n, t) l -> length (usable nc mask s t) < n.

(* What became of a waiting request *)
Definition kept_or_granted (s s1 : cpuset) (n t : nat) : Prop :=
  (In (n, t) (u_pend s1) /\ held s1 t = held s t) \/
  (~ In t (map snd (u_pend s1)) /\ exists g, length g = n /\ held s1 t = held s t ++ g).

Lemma scan_ok : forall nc mask l s kept, nc <= 31 -> uinv nc mask s ->
  NoDup (map snd (kept ++ l)) -> stuck_pend nc mask s kept ->
  let s1 := u_scan nc mask l s kept in
  uinv nc mask s1 /\ stuck_pend nc mask s1 (u_pend s1) /\
  NoDup (map snd (u_pend s1)) /\ incl (u_pend s1) (kept ++ l) /\ incl kept (u_pend s1) /\
  (forall n t, In (n, t) l -> kept_or_granted s s1 n t) /\
  (forall t, ~ In t (map snd l) -> held s1 t = held s t).
Proof.
  intros nc mask l. induction l as [|[n t] l IH]; intros s kept N I ND SP; cbn zeta; cbn [u_scan].
  - rewrite app_nil_r in *. split; [|split; [|split; [|split; [|split; [|split]]]]]; cbn [u_pend].
    + destruct I as [I1 I2 I3 I4 I5]. split; [exact I1|exact I2|exact I3|exact I4|exact I5].
    + exact SP.
    + exact ND.
    + intros x; auto.
    + intros x; auto.
    + intros ? ? [].
    + reflexivity.
  - pose proof (allocate_ok nc mask s n t N I) as A.
    destruct (u_allocate nc mask s n t) as [s1 ok]. destruct A as (I1 & _ & MON & OTH & A).
    assert (SP1 : stuck_pend nc mask s1 kept).
    { intros m u Hm. pose proof (SP m u Hm). pose proof (usable_mono nc mask s s1 u MON). lia. }
    rewrite map_app in ND. cbn [map snd] in ND.
    assert (NT : ~ In t (map snd l)).
    { apply nodup_app_iff in ND as (_ & ND & _). inversion ND; assumption. }
    assert (NK : ~ In t (map snd kept)).
    { apply nodup_app_iff in ND as (_ & _ & ND). intros H. apply (ND t H). left. reflexivity. }
    destruct ok.
    + destruct A as [A1 A2].
      destruct (IH s1 kept N I1) as (R1 & R2 & R3 & R4 & R5 & R6 & R7).
      { rewrite map_app. apply NoDup_remove_1 in ND. exact ND. }
      { exact SP1. }
      split; [exact R1|split; [exact R2|split; [exact R3|split; [|split; [exact R5|split]]]]].
      * intros x Hx. apply R4 in Hx. apply in_app_iff in Hx. apply in_app_iff. cbn. tauto.
      * intros m u [E|Hu].
        -- inversion E; subst m u. right. split.
           ++ intros H. apply in_map_iff in H as ([m u] & <- & Hm). cbn in *. apply R4 in Hm.
              apply in_app_iff in Hm as [Hm|Hm]; [apply NK|apply NT];
                apply in_map_iff; exists (m, u); auto.
           ++ exists (firstn n (usable nc mask s t)). split; [rewrite firstn_length; lia|].
              rewrite R7 by exact NT. exact A2.
        -- assert (UT : u <> t) by (intros ->; apply NT, in_map_iff; exists (m, t); auto).
           destruct (R6 m u Hu) as [[H1 H2]|(H1 & g & H2 & H3)]; rewrite OTH in * by exact UT.
           ++ left. auto.
           ++ right. split; [exact H1|]. exists g. auto.
      * intros u Hu. cbn in Hu. rewrite R7 by tauto. apply OTH. intros ->. tauto.
    + destruct A as (A1 & A2 & A3).
      destruct (IH s1 (kept ++ [(n, t)]) N I1) as (R1 & R2 & R3 & R4 & R5 & R6 & R7).
      { rewrite <- app_assoc. cbn. rewrite map_app. exact ND. }
      { intros m u Hm. apply in_app_iff in Hm as [Hm|[E|[]]]; [apply SP1; exact Hm|].
        inversion E; subst m u. unfold usable in *. rewrite A2. exact A1. }
      split; [exact R1|split; [exact R2|split; [exact R3|split; [|split; [|split]]]]].
      * intros x Hx. apply R4 in Hx. rewrite <- app_assoc in Hx. exact Hx.
      * intros x Hx. apply R5. apply in_app_iff. auto.
      * intros m u [E|Hu].
        -- inversion E; subst m u. left. split.
           ++ apply R5, in_app_iff. right. left. reflexivity.
           ++ rewrite R7 by exact NT. apply A3.
        -- destruct (R6 m u Hu) as [[H1 H2]|(H1 & g & H2 & H3)].
           ++ left. rewrite <- (A3 u). auto.
           ++ right. split; [exact H1|]. exists g. rewrite <- (A3 u). auto.
      * intros u Hu. cbn in Hu. rewrite R7 by tauto. apply A3.
Qed.

Record ustate (nc : nat) (mask : nat -> Z) (s : cpuset) : Prop := {
  us_inv : uinv nc mask s;
  us_stuck : stuck_pend nc mask s (u_pend s);
  us_nodup : NoDup (map snd (u_pend s)) }.

Lemma busy_spec : forall l t, busy l t = true <-> In t (map snd l).
Proof.
  intros l t. unfold busy. rewrite existsb_exists. split.
  - intros (r & Hr & E). apply Nat.eqb_eq in E. subst t. apply in_map. exact Hr.
  - intros H. apply in_map_iff in H as (r & <- & Hr). exists r. split; [exact Hr|apply Nat.eqb_refl].
Qed.

Lemma busy_false : forall l t, busy l t = false -> ~ In t (map snd l).
Proof. intros l t H K. apply busy_spec in K. congruence. Qed.

Lemma reserve_ok : forall nc mask s n t, nc <= 31 -> ustate nc mask s -> ~ In t (map snd (u_pend s)) ->
  let s1 := u_reserve nc mask s n t in
  ustate nc mask s1 /\ kept_or_granted s s1 n t /\ (forall u, u <> t -> held s1 u = held s u).
Proof.
  intros nc mask s n t N [I SP ND] NP. unfold u_reserve.
  pose proof (allocate_ok nc mask s n t N I) as A.
  destruct (u_allocate nc mask s n t) as [s1 ok]. destruct A as (I1 & EP & MON & OTH & A).
  assert (SP1 : stuck_pend nc mask s1 (u_pend s)).
  { intros m u Hm. pose proof (SP m u Hm). pose proof (usable_mono nc mask s s1 u MON). lia. }
  destruct ok; cbn zeta.
  - destruct A as [A1 A2]. split; [|split].
    + split; [exact I1|rewrite EP; exact SP1|rewrite EP; exact ND].
    + right. rewrite EP. split; [exact NP|]. eexists. split; [|exact A2]. rewrite firstn_length. lia.
    + exact OTH.
  - destruct A as (A1 & A2 & A3). split; [|split].
    + split.
      * destruct I1 as [J1 J2 J3 J4 J5]. split; [exact J1|exact J2|exact J3|exact J4|exact J5].
      * cbn [u_pend]. rewrite EP. intros m u Hm. apply in_app_iff in Hm as [Hm|[E|[]]]; [exact (SP1 m u Hm)|].
        inversion E; subst m u. unfold usable in *. cbn [u_avail]. rewrite A2. exact A1.
      * cbn [u_pend]. rewrite EP, map_app. cbn. apply nodup_app; [exact ND|constructor; [intros []|constructor]|].
        intros y Hy [<-|[]]. contradiction.
    + left. cbn [u_pend]. split; [apply in_app_iff; right; left; reflexivity|apply A3].
    + exact OTH.
Qed.

Lemma release_ok : forall nc mask s n t, nc <= 31 -> ustate nc mask s -> ~ In t (map snd (u_pend s)) ->
  n <= length (held s t) ->
  let s1 := u_release nc mask s n t in
  ustate nc mask s1 /\ held s1 t = firstn (length (held s t) - n) (held s t) /\
  incl (u_pend s1) (u_pend s) /\
  (forall m u, In (m, u) (u_pend s) -> kept_or_granted s s1 m u) /\
  (forall u, u <> t -> ~ In u (map snd (u_pend s)) -> held s1 u = held s u).
Proof.
  intros nc mask s n t N [I SP ND] NP LE. unfold u_release.
  set (k := length (held s t) - n).
  pose proof (give_ok nc mask [] t (skipn k (held s t)) s (firstn k (held s t)) N I (eq_sym (firstn_skipn _ _))) as G.
  rewrite skipn_length in G. replace (length (held s t) - k) with n in G by lia.
  destruct (u_give n (u_avail s) (u_cores s t)) as [a c]. cbn [fst snd] in G. destruct G as [G1 G2].
  set (s0 := {| u_avail := a; u_cores := upd_at (u_cores s) t c; u_pend := [] |}) in *.
  destruct (scan_ok nc mask (u_pend s) s0 [] N G1 ND) as (R1 & R2 & R3 & R4 & _ & R6 & R7).
  { intros ? ? []. }
  cbn zeta. split; [split; assumption|split; [|split; [exact R4|split]]].
  - rewrite R7 by exact NP. rewrite G2, Nat.eqb_refl. reflexivity.
  - intros m u Hu. assert (UT : u <> t) by (intros ->; apply NP, in_map_iff; exists (m, t); auto).
    destruct (R6 m u Hu) as [[H1 H2]|(H1 & g & H2 & H3)]; rewrite G2 in *;
      destruct (Nat.eqb_spec u t); try contradiction; [left|right]; auto. split; [exact H1|]. exists g. auto.
  - intros u UT Hu. rewrite R7 by exact Hu. rewrite G2. destruct (Nat.eqb_spec u t); [contradiction|reflexivity].
Qed.

Lemma has_all : forall nc i, nc <= 31 -> has (u_all nc) i = (i <? nc).
Proof.
  intros nc i N. unfold u_all.
  assert (G : forall l m, (forall j, In j l -> j < 31) ->
     has (fold_left (fun (m0 : Z) (i0 : nat) => Z.lor m0 (bit i0)) l m) i = has m i || existsb (Nat.eqb i) l).
  { intros l. induction l as [|x l IH]; intros m B; cbn; [now rewrite orb_false_r|].
    rewrite IH by (intros j Hj; apply B; right; exact Hj).
    rewrite has_lor, has_bit, <- orb_assoc, (Nat.eqb_sym x i) by (apply B; left; reflexivity). reflexivity. }
  rewrite G by (intros j Hj; apply in_seq in Hj; lia).
  unfold has at 1. rewrite Z.bits_0. cbn [orb].
  apply eq_true_iff_eq. rewrite existsb_exists, Nat.ltb_lt. split.
  - intros (x & Hx & E). apply Nat.eqb_eq in E. subst. apply in_seq in Hx. lia.
  - intros H. exists i. split; [apply in_seq; lia|apply Nat.eqb_refl].
Qed.

Lemma start_ok : forall nc mask, nc <= 31 -> ustate nc mask (cpuset0 nc).
Proof.
  intros nc mask N. split.
  - split.
    + intros t. cbn. split; [constructor|split; [intros ? []|]]. intros i Hi. unfold has. cbn. rewrite Z.bits_0.
      split; [discriminate|intros []].
    + intros t i [].
    + intros t i [].
    + intros t u i [].
    + intros i Hi Hf. cbn in Hf. rewrite has_all in Hf by exact N. apply Nat.ltb_ge in Hf. lia.
  - intros ? ? [].
  - constructor.
Qed.

Lemma step_ok : forall nc mask s o s1, nc <= 31 -> ustate nc mask s -> u_step nc mask s o = Some s1 -> ustate nc mask s1.
Proof.
  intros nc mask s o s1 N U H. destruct o as [n t|n t|k]; cbn in H; [| |discriminate];
    destruct (busy (u_pend s) t) eqn:B; try discriminate; apply busy_false in B.
  - inversion H; subst. apply reserve_ok; assumption.
  - destruct (n <=? length (c_list (u_cores s t))) eqn:L; [|discriminate]. inversion H; subst.
    apply release_ok; auto. apply Nat.leb_le in L. exact L.
Qed.

Lemma run_ok : forall nc mask l s s1, nc <= 31 -> ustate nc mask s -> u_run nc mask s l = Some s1 -> ustate nc mask s1.
Proof.
  intros nc mask l. induction l as [|o l IH]; intros s s1 N U H; cbn in H; [inversion H; subst; exact U|].
  destruct (u_step nc mask s o) as [s2|] eqn:E; [|discriminate].
  apply (IH s2); auto. eapply step_ok; eauto.
Qed.

(* ---------- the statements ---------- *)

(* Cores are never shared: with at most 31 cores, after any sequence of reservations and
   releases, every core of the node is either free or held by exactly one thread, which holds
   it once and has it in its cpuset. *)
Theorem cpuset_cores_exclusive : forall nc mask l s,
  nc <= 31 -> u_run nc mask (cpuset0 nc) l = Some s ->
  (forall t, NoDup (held s t)) /\
  (forall t i, In i (held s t) -> i < nc /\ Z.testbit (mask t) (Z.of_nat i) = true) /\
  (forall i, i < nc ->
     if Z.testbit (u_avail s) (Z.of_nat i) then forall t, ~ In i (held s t)
     else exists t, In i (held s t) /\ forall u, In i (held s u) -> u = t).
Proof.
  intros nc mask l s N H. destruct (run_ok nc mask l _ s N (start_ok nc mask N) H) as [I _ _].
  split; [|split].
  - intros t. apply (ui_ok _ _ _ I).
  - intros t i Hi. split; [exact (proj1 (proj2 (ui_ok _ _ _ I t)) i Hi)|exact (ui_mask _ _ _ I t i Hi)].
  - intros i Hi. destruct (Z.testbit (u_avail s) (Z.of_nat i)) eqn:E.
    + intros t Ht. apply (ui_busy _ _ _ I) in Ht. unfold has in Ht. congruence.
    + destruct (ui_all _ _ _ I i Hi E) as [t Ht]. exists t. split; [exact Ht|].
      intros u Hu. exact (ui_one _ _ _ I _ _ _ Hu Ht).
Qed.
Print Assumptions cpuset_cores_exclusive.

(* No core is left idle that a waiting thread could use: whenever a thread waits for n cores,
   fewer than n of the cores in its cpuset are free. *)
Theorem cpuset_waits_only_for_cores : forall nc mask l s n t,
  nc <= 31 -> u_run nc mask (cpuset0 nc) l = Some s -> In (n, t) (u_pend s) ->
  forall free, NoDup free ->
    (forall i, In i free -> i < nc /\ Z.testbit (mask t) (Z.of_nat i) = true /\ forall u, ~ In i (held s u)) ->
    length free < n.
Proof.
  intros nc mask l s n t N H P free ND F.
  destruct (run_ok nc mask l _ s N (start_ok nc mask N) H) as [I SP _].
  pose proof (SP n t P) as L.
  assert (length free <= length (usable nc mask s t)); [|lia].
  apply NoDup_incl_length; [exact ND|]. intros i Hi. destruct (F i Hi) as (F1 & F2 & F3).
  apply filter_In. split; [apply in_seq; lia|]. unfold has. rewrite F2. cbn.
  destruct (Z.testbit (u_avail s) (Z.of_nat i)) eqn:E; [reflexivity|].
  destruct (ui_all _ _ _ I i F1 E) as [u Hu]. exfalso. exact (F3 u Hu).
Qed.
Print Assumptions cpuset_waits_only_for_cores.

(* A reservation gives the thread exactly n more cores or leaves it waiting with what it had;
   a release takes exactly n cores from the thread and every waiting request is afterwards
   either still waiting, with nothing changed for its thread, or gone, and then its thread has
   exactly the cores it asked for in addition. *)
Theorem cpuset_requests_served : forall nc mask l s o s1,
  nc <= 31 -> u_run nc mask (cpuset0 nc) l = Some s -> u_step nc mask s o = Some s1 ->
  match o with
  | Reserve n t => kept_or_granted s s1 n t /\ (forall u, u <> t -> held s1 u = held s u)
  | Release n t =>
    (exists given, length given = n /\ held s t = held s1 t ++ given) /\
    (forall m u, In (m, u) (u_pend s) -> kept_or_granted s s1 m u) /\
    (forall u, u <> t -> ~ In u (map snd (u_pend s)) -> held s1 u = held s u)
  | Wake _ => False
  end.
Proof.
  intros nc mask l s o s1 N H K.
  pose proof (run_ok nc mask l _ s N (start_ok nc mask N) H) as U.
  destruct o as [n t|n t|k]; cbn in K; [| |discriminate];
    destruct (busy (u_pend s) t) eqn:B; try discriminate; apply busy_false in B.
  - inversion K; subst. apply reserve_ok; assumption.
  - destruct (n <=? length (c_list (u_cores s t))) eqn:L; [|discriminate]. apply Nat.leb_le in L. inversion K; subst.
    destruct (release_ok nc mask s n t N U B L) as (_ & R1 & _ & R2 & R3).
    split; [|split; assumption].
    exists (skipn (length (held s t) - n) (held s t)). split.
    + rewrite skipn_length. unfold held. lia.
    + rewrite R1. symmetry. apply firstn_skipn.
Qed.
Print Assumptions cpuset_requests_served.

(* With more than 32 cores the masks alias (1<<32 is undefined; on x86 it is 1): a core that a
   thread still holds is handed to another one. *)
Theorem cpuset_exclusive_above_32_refuted : exists nc mask l s i t u,
  nc = 33 /\ u_run nc mask (cpuset0 nc) l = Some s /\ t <> u /\ In i (held s t) /\ In i (held s u).
Proof.
  destruct (u_run 33 (fun _ => Z.ones 64) (cpuset0 33) [Reserve 33 1; Release 1 1; Reserve 1 2]) as [s|] eqn:E.
  - exists 33, (fun _ => Z.ones 64), [Reserve 33 1; Release 1 1; Reserve 1 2], s, 0, 1, 2.
    assert (X : option_map (fun s => (held s 1, held s 2)) (u_run 33 (fun _ => Z.ones 64) (cpuset0 33)
      [Reserve 33 1; Release 1 1; Reserve 1 2]) = Some (seq 0 32, [0])) by (vm_compute; reflexivity).
    rewrite E in X. cbn [option_map] in X. inversion X as [[X1 X2]].
    split; [reflexivity|split; [exact E|split; [discriminate|split]]].
    + rewrite X1. left. reflexivity.
    + rewrite X2. left. reflexivity.
  - exfalso. assert (X : (if u_run 33 (fun _ => Z.ones 64) (cpuset0 33)
      [Reserve 33 1; Release 1 1; Reserve 1 2] then true else false) = true) by (vm_compute; reflexivity).
    rewrite E in X. discriminate.
Qed.
Print Assumptions cpuset_exclusive_above_32_refuted.

(* Four cores; thread 2 may only use cores 0 and 1.  It waits, and a release by thread 1 serves it. *)
Example cpuset_example :
  option_map (fun s => (map (held s) [1; 2; 3], u_pend s, u_avail s))
    (u_run 4 (fun t => if Nat.eqb t 2 then 3%Z else Z.ones 64) (cpuset0 4)
       [Reserve 2 1; Reserve 1 2; Reserve 3 3]) = Some ([[0; 1]; []; []], [(1, 2); (3, 3)], 12%Z) /\
  option_map (fun s => (map (held s) [1; 2; 3], u_pend s, u_avail s))
    (u_run 4 (fun t => if Nat.eqb t 2 then 3%Z else Z.ones 64) (cpuset0 4)
       [Reserve 2 1; Reserve 1 2; Reserve 3 3; Release 1 1]) = Some ([[0]; [1]; []], [(3, 3)], 12%Z).
Proof. split; vm_compute; reflexivity. Qed.

(* ================= the simple scheduler ================= *)

Fixpoint total (h : nat -> list nat) (ts : list nat) : nat :=
  match ts with [] => 0 | t :: r => length (h t) + total h r end.

Record sinv (nc : nat) (s : simple) : Prop := {
  si_le : s_active s <= nc;
  si_sum : exists ts, NoDup ts /\ (forall t, ~ In t ts -> s_held s t = []) /\ total (s_held s) ts = s_active s;
  si_rng : forall t i, In i (s_held s t) -> i < nc }.

Lemma total_other : forall h t l ts, ~ In t ts -> total (upd_at h t l) ts = total h ts.
Proof.
  intros h t l ts. induction ts as [|x ts IH]; intros H; cbn; [reflexivity|].
  rewrite IH by (intros K; apply H; right; exact K). rewrite upd_at_other; [reflexivity|].
  intros ->. apply H. left. reflexivity.
Qed.

Lemma total_upd : forall h t l ts, NoDup ts -> In t ts ->
  total (upd_at h t l) ts + length (h t) = total h ts + length l.
Proof.
  intros h t l ts. induction ts as [|x ts IH]; intros ND H; [destruct H|].
  inversion ND as [|? ? N1 N2]; subst. cbn. destruct (Nat.eq_dec x t) as [->|NE].
  - rewrite upd_at_same, total_other by exact N1. lia.
  - rewrite upd_at_other by exact NE. destruct H as [H|H]; [contradiction|]. specialize (IH N2 H). lia.
Qed.

Lemma cover : forall h ts t, NoDup ts -> (forall u, ~ In u ts -> h u = []) ->
  exists ts1, NoDup ts1 /\ In t ts1 /\ (forall u, ~ In u ts1 -> h u = []) /\ total h ts1 = total h ts.
Proof.
  intros h ts t ND C. destruct (in_dec Nat.eq_dec t ts) as [H|H].
  - exists ts. auto.
  - exists (t :: ts). split; [constructor; auto|split; [left; reflexivity|split]].
    + intros u Hu. apply C. intros K. apply Hu. right. exact K.
    + cbn. rewrite C by exact H. reflexivity.
Qed.

Lemma total_in : forall h ts t, In t ts -> length (h t) <= total h ts.
Proof.
  intros h ts t. induction ts as [|x ts IH]; intros H; [destruct H|]. cbn. destruct H as [->|H]; [lia|].
  specialize (IH H). lia.
Qed.

Lemma pop_n_firstn : forall A n (l : list A), n <= length l -> pop_n n l = firstn (length l - n) l.
Proof.
  intros A n. induction n as [|n IH]; intros l H; cbn.
  - now rewrite Nat.sub_0_r, firstn_all.
  - rewrite <- (rev_involutive l) in *. destruct (rev l) as [|x r]; [cbn in H; lia|]. cbn in *.
    rewrite app_length in *. cbn in *. rewrite removelast_last, IH by lia.
    rewrite firstn_app. replace (length (rev r) + 1 - S n - length (rev r)) with 0 by lia. cbn.
    rewrite app_nil_r. f_equal. lia.
Qed.

Lemma s_try_ok : forall nc s n t, sinv nc s -> sinv nc (s_try nc s n t).
Proof.
  intros nc s n t [L (ts & ND & C & T) R]. unfold s_try. destruct (Nat.ltb_spec nc (n + s_active s)).
  - split; cbn; [exact L|exists ts; auto|exact R].
  - destruct (cover _ ts t ND C) as (ts1 & ND1 & IN1 & C1 & T1).
    split; cbn [s_active s_held].
    + lia.
    + exists ts1. split; [exact ND1|split].
      * intros u Hu. rewrite upd_at_other by (intros ->; contradiction). auto.
      * pose proof (total_upd (s_held s) t (s_held s t ++ seq (s_active s) n) ts1 ND1 IN1) as X.
        rewrite app_length, seq_length in X. lia.
    + intros u i. unfold upd_at. destruct (Nat.eqb_spec u t) as [->|]; [|apply R].
      intros Hi. apply in_app_iff in Hi as [Hi|Hi]; [exact (R _ _ Hi)|apply in_seq in Hi; lia].
Qed.

Lemma s_release_ok : forall nc s n t, sinv nc s -> n <= length (s_held s t) -> sinv nc (s_release nc s n t).
Proof.
  intros nc s n t [L (ts & ND & C & T) R] H.
  destruct (cover _ ts t ND C) as (ts1 & ND1 & IN1 & C1 & T1).
  assert (X : sinv nc {| s_active := s_active s - n; s_held := upd_at (s_held s) t (pop_n n (s_held s t));
     s_pend := []; s_woken := [] |}).
  { split; cbn [s_active s_held].
    - lia.
    - exists ts1. split; [exact ND1|split].
      + intros u Hu. rewrite upd_at_other by (intros ->; contradiction). auto.
      + pose proof (total_upd (s_held s) t (pop_n n (s_held s t)) ts1 ND1 IN1) as X.
        rewrite pop_n_firstn in * by exact H. rewrite firstn_length in X.
        pose proof (total_in (s_held s) ts1 t IN1). lia.
    - intros u i. unfold upd_at. destruct (Nat.eqb_spec u t) as [->|]; [|apply R].
      rewrite pop_n_firstn by exact H. intros Hi. apply firstn_incl in Hi. exact (R _ _ Hi). }
  destruct X as [X1 X2 X3]. unfold s_release. destruct (s_find _ _) as [[r l]|]; split; assumption.
Qed.

Lemma s_step_ok : forall nc s o s1, sinv nc s -> s_step nc s o = Some s1 -> sinv nc s1.
Proof.
  intros nc s o s1 I H. destruct o as [n t|n t|k]; cbn in H.
  - destruct (busy _ _); [discriminate|]. inversion H. apply s_try_ok, I.
  - destruct (busy _ _); [discriminate|]. destruct (Nat.leb_spec n (length (s_held s t))); [|discriminate].
    inversion H. apply s_release_ok; assumption.
  - destruct (nth_error (s_woken s) k) as [[n t]|]; [|discriminate]. inversion H. apply s_try_ok.
    destruct I as [I1 I2 I3]. split; assumption.
Qed.

Lemma s_run_ok : forall nc l s s1, sinv nc s -> s_run nc s l = Some s1 -> sinv nc s1.
Proof.
  intros nc l. induction l as [|o l IH]; intros s s1 I H; cbn in H; [inversion H; subst; exact I|].
  destruct (s_step nc s o) as [s2|] eqn:E; [|discriminate]. apply (IH s2); auto. eapply s_step_ok; eauto.
Qed.

Lemma s_start : forall nc, sinv nc simple0.
Proof.
  intros nc. split; cbn; [lia| |intros ? ? []]. exists []. split; [constructor|split; [auto|reflexivity]].
Qed.

Lemma total_incl : forall h vs, NoDup vs -> forall ts, (forall t, In t vs -> ~ In t ts -> h t = []) ->
  total h vs <= total h ts.
Proof.
  intros h vs. induction vs as [|x vs IH]; intros V2 ts W; cbn; [lia|]. inversion V2 as [|? ? X1 X2]; subst.
  destruct (in_dec Nat.eq_dec x ts) as [Hx|Hx].
  - apply in_split in Hx as (c & d & ->).
    assert (TS : total h (c ++ x :: d) = length (h x) + total h (c ++ d)).
    { clear. induction c as [|y c IH]; cbn; [reflexivity|]. rewrite IH. lia. }
    rewrite TS. assert (total h vs <= total h (c ++ d)); [|lia].
    apply IH; [exact X2|]. intros t Ht Hn. apply W; [right; exact Ht|]. intros K. apply Hn.
    apply in_app_iff in K as [K|[K|K]]; apply in_app_iff; auto. subst t. contradiction.
  - rewrite (W x (or_introl eq_refl) Hx). cbn. apply IH; auto. intros t Ht. apply W. right. exact Ht.
Qed.

(* The simple scheduler never hands out more cores than the node has: the cores held by any
   set of threads are at most nc together, and the core numbers are those of the node. *)
Theorem simple_capacity : forall nc l s, s_run nc simple0 l = Some s ->
  (forall ts, NoDup ts -> length (concat (map (s_held s) ts)) <= nc) /\
  (forall t i, In i (s_held s t) -> i < nc).
Proof.
  intros nc l s H. destruct (s_run_ok nc l _ s (s_start nc) H) as [L (ts & ND & C & T) R].
  split; [|exact R]. intros us NU.
  assert (E : length (concat (map (s_held s) us)) = total (s_held s) us).
  { clear. induction us as [|u us IH]; cbn; [reflexivity|]. rewrite app_length, IH. reflexivity. }
  rewrite E. pose proof (total_incl (s_held s) us NU ts (fun t _ => C t)). lia.
Qed.
Print Assumptions simple_capacity.

(* Its core numbers are not exclusive: two threads can hold the same core. *)
Theorem simple_exclusive_refuted : exists nc l s i t u,
  s_run nc simple0 l = Some s /\ t <> u /\ In i (s_held s t) /\ In i (s_held s u).
Proof.
  exists 3, [Reserve 1 1; Reserve 1 2; Release 1 1; Reserve 1 3]. eexists. exists 1, 2, 3.
  split; [reflexivity|split; [discriminate|split; left; reflexivity]].
Qed.
Print Assumptions simple_exclusive_refuted.

(* Nor is it work conserving: a thread can wait for one core for ever while one is free and
   nobody is about to be woken, because a release of two cores wakes only one thread. *)
Theorem simple_work_conserving_refuted : exists nc l s t,
  s_run nc simple0 l = Some s /\ In (1, t) (s_pend s) /\ s_woken s = [] /\ s_active s < nc.
Proof.
  exists 2, [Reserve 2 1; Reserve 1 2; Reserve 1 3; Release 2 1; Wake 0]. eexists. exists 3.
  split; [reflexivity|split; [left; reflexivity|split; [reflexivity|cbn; lia]]].
Qed.
Print Assumptions simple_work_conserving_refuted.

Definition unit_op (o : op) : Prop :=
  match o with Reserve n _ | Release n _ => n = 1 | Wake _ => True end.

Lemma s_find_one : forall free l, (forall r, In r l -> fst r = 1) -> l <> [] -> 0 < free ->
  exists r l1, s_find free l = Some (r, l1) /\ fst r = 1 /\ (forall x, In x l1 -> fst x = 1).
Proof.
  intros free l F NE P. destruct l as [|r l]; [contradiction|]. cbn. pose proof (F r (or_introl eq_refl)) as E.
  rewrite E. destruct (Nat.leb_spec 1 free); [|lia]. exists r, l. split; [reflexivity|split; [exact E|]].
  intros x Hx. apply F. right. exact Hx.
Qed.

Lemma without_length : forall A k (l : list A), k < length l -> S (length (without k l)) = length l.
Proof.
  intros A k. induction k as [|k IH]; intros [|x l] H; cbn in *; try lia. rewrite IH; lia.
Qed.
Lemma without_incl : forall A k (l : list A) x, In x (without k l) -> In x l.
Proof.
  intros A k. induction k as [|k IH]; intros [|y l] x H; cbn in *; auto. destruct H as [->|H]; auto.
Qed.

Record sone (nc : nat) (s : simple) : Prop := {
  so_p : forall r, In r (s_pend s) -> fst r = 1;
  so_w : forall r, In r (s_woken s) -> fst r = 1;
  so_f : s_pend s <> [] -> nc - s_active s <= length (s_woken s) }.

Lemma sone_step : forall nc s o s1, sinv nc s -> sone nc s -> unit_op o -> s_step nc s o = Some s1 -> sone nc s1.
Proof.
  intros nc s o s1 I [P W F] U H. destruct o as [n t|n t|k]; cbn in H, U.
  - subst n. destruct (busy _ _); [discriminate|]. inversion H. unfold s_try.
    destruct (Nat.ltb_spec nc (1 + s_active s)); split; cbn [s_pend s_woken s_active]; auto.
    + intros r Hr. apply in_app_iff in Hr as [Hr|[<-|[]]]; auto.
    + intros _. lia.
    + intros NE. specialize (F NE). lia.
  - subst n. destruct (busy _ _); [discriminate|]. destruct (Nat.leb_spec 1 (length (s_held s t))) as [L|]; [|discriminate].
    inversion H. unfold s_release.
    assert (AP : 0 < s_active s).
    { destruct I as [_ (ts & ND & C & T) _]. destruct (cover _ ts t ND C) as (ts1 & _ & IN1 & _ & T1).
      pose proof (total_in (s_held s) ts1 t IN1). lia. }
    destruct I as [LE _ _].
    destruct (s_pend s) as [|r0 p] eqn:EP.
    + cbn. split; cbn [s_pend s_woken s_active]; auto. intros NE. contradiction.
    + destruct (s_find_one (nc - (s_active s - 1)) (r0 :: p) P) as (r & l1 & E & R1 & R2); [discriminate|lia|].
      rewrite E. split; cbn [s_pend s_woken s_active]; auto.
      * intros x Hx. apply in_app_iff in Hx as [Hx|[<-|[]]]; auto.
      * intros _. rewrite app_length. cbn. assert (F' := F ltac:(discriminate)). lia.
  - destruct (nth_error (s_woken s) k) as [[n t]|] eqn:E; [|discriminate]. inversion H.
    assert (E1 : n = 1) by exact (W (n, t) (nth_error_In _ _ E)). subst n.
    assert (KL : k < length (s_woken s)) by (apply nth_error_Some; congruence).
    pose proof (without_length _ k _ KL) as WL.
    unfold s_try. cbn [s_active s_held s_pend s_woken].
    destruct (Nat.ltb_spec nc (1 + s_active s)); split; cbn [s_pend s_woken s_active]; auto.
    + intros r Hr. apply in_app_iff in Hr as [Hr|[<-|[]]]; auto.
    + intros r Hr. apply W. eapply without_incl; eauto.
    + intros _. lia.
    + intros r Hr. apply W. eapply without_incl; eauto.
    + intros NE. specialize (F NE). lia.
Qed.

(* Missing from the full claim: requests and releases of more than one core (see the
   refutation).  When every request and release is for one core, as for every computation
   (operating_system.cc:215-226), a thread waits only if every free core is already on its way
   to a thread that was woken; so with no wake-up on its way all cores are in use. *)
Theorem simple_work_conserving_partial : forall nc l s,
  s_run nc simple0 l = Some s -> (forall o, In o l -> unit_op o) -> s_pend s <> [] ->
  nc <= s_active s + length (s_woken s) /\ (s_woken s = [] -> s_active s = nc).
Proof.
  intros nc l s H U NE.
  assert (G : forall l s0, sinv nc s0 -> sone nc s0 -> s_run nc s0 l = Some s -> (forall o, In o l -> unit_op o) ->
     sinv nc s /\ sone nc s).
  { clear. intros l. induction l as [|o l IH]; intros s0 I O H U; cbn in H; [inversion H; subst; auto|].
    destruct (s_step nc s0 o) as [s2|] eqn:E; [|discriminate].
    apply (IH s2); auto.
    - eapply s_step_ok; eauto.
    - eapply sone_step; eauto. apply U. left. reflexivity.
    - intros x Hx. apply U. right. exact Hx. }
  destruct (G l simple0 (s_start nc)) as [[L _ _] [_ _ F]]; auto.
  { split; [intros ? []|intros ? []|intros K; exfalso; apply K; reflexivity]. }
  specialize (F NE). split; [lia|]. intros E. rewrite E in F. cbn in F. lia.
Qed.
Print Assumptions simple_work_conserving_partial.

(* Two cores, four threads: the woken thread 3 finds its core taken by thread 5 and waits again. *)
Example simple_example :
  option_map (fun s => (map (s_held s) [1; 2; 3; 5], s_pend s, s_woken s, s_active s))
    (s_run 2 simple0 [Reserve 1 1; Reserve 1 2; Reserve 1 3; Release 1 1; Reserve 1 5; Wake 0])
  = Some ([[]; [1]; []; [1]], [(1, 3)], [], 2).
Proof. reflexivity. Qed.
