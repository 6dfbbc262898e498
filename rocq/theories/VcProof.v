(** Proofs about DirectAlltoallvActor. *)
From Coq Require Import List Arith Bool Lia.
From Verif Require Import RdModel RdProof VcModel.
Import ListNotations.

Lemma upd2_in : forall X (f : nat -> nat -> X) p q x, upd2 f p q x p q = x.
Proof. intros. unfold upd2. now rewrite !Nat.eqb_refl. Qed.
Lemma upd2_out : forall X (f : nat -> nat -> X) p q x a b, (a, b) <> (p, q) -> upd2 f p q x a b = f a b.
Proof.
  intros. unfold upd2. destruct (Nat.eqb_spec a p) as [->|]; [|reflexivity]. destruct (Nat.eqb_spec b q) as [->|]; [contradiction|reflexivity].
Qed.
Lemma upd2_true : forall f p q a b, upd2 f p q true a b = true <-> ((a = p /\ b = q) \/ f a b = true).
Proof.
  intros. unfold upd2. destruct (Nat.eqb_spec a p), (Nat.eqb_spec b q); cbn [andb]; intuition congruence.
Qed.

(** Number of flags set. *)
Fixpoint cnt1 (f : nat -> bool) (n : nat) : nat := match n with 0 => 0 | S k => cnt1 f k + (if f k then 1 else 0) end.
Fixpoint cnt2 (f : nat -> nat -> bool) (n m : nat) : nat := match n with 0 => 0 | S k => cnt2 f k m + cnt1 (f k) m end.
Lemma cnt1_le : forall f n, cnt1 f n <= n.
Proof. induction n as [|n IH]; cbn; [lia|]. destruct (f n); lia. Qed.
Lemma cnt2_le : forall f n m, cnt2 f n m <= n * m.
Proof. induction n as [|n IH]; intros m; cbn; [lia|]. pose proof (IH m). pose proof (cnt1_le (f n) m). lia. Qed.
Lemma cnt1_ext : forall f g n, (forall i, i < n -> f i = g i) -> cnt1 f n = cnt1 g n.
Proof. induction n as [|n IH]; intros H; cbn; [reflexivity|]. rewrite IH by (intros; apply H; lia). now rewrite H by lia. Qed.
Lemma cnt1_set : forall f g n q, q < n -> f q = false -> g q = true -> (forall i, i <> q -> g i = f i) -> cnt1 g n = S (cnt1 f n).
Proof.
  induction n as [|n IH]; intros q Hq F G E; [lia|]. cbn. destruct (Nat.eq_dec q n) as [->|N].
  - rewrite F, G. rewrite (cnt1_ext g f) by (intros; apply E; lia). lia.
  - rewrite (IH q) by (auto; lia). rewrite E by lia. lia.
Qed.
Lemma cnt2_ext : forall f g n m, (forall i j, i < n -> f i j = g i j) -> cnt2 f n m = cnt2 g n m.
Proof. induction n as [|n IH]; intros m H; cbn; [reflexivity|]. rewrite IH by (intros; apply H; lia). f_equal. apply cnt1_ext. intros; apply H; lia. Qed.
Lemma cnt2_set : forall f n m p q, p < n -> q < m -> f p q = false -> cnt2 (upd2 f p q true) n m = S (cnt2 f n m).
Proof.
  induction n as [|n IH]; intros m p q Hp Hq F; [lia|]. cbn. destruct (Nat.eq_dec p n) as [->|N].
  - rewrite (cnt1_set (f n) (upd2 f n q true n) m q Hq F).
    + rewrite (cnt2_ext _ f) by (intros; apply upd2_out; intros K; injection K; lia). lia.
    + apply upd2_in.
    + intros i Hi. apply upd2_out. congruence.
  - rewrite IH by (auto; lia). rewrite (cnt1_ext _ (f n)) by (intros; apply upd2_out; intros K; injection K; lia). lia.
Qed.

Section Direct.
Context {T : Type}.
Variables (n : nat) (src : nat -> nat -> T) (sc rc : nat -> nat -> nat) (eager : nat -> nat -> bool) (mem0 : nat -> nat -> T).

Lemma send_to_lt : forall p i, 0 < n -> send_to n p i < n.
Proof. intros. apply Nat.mod_upper_bound. lia. Qed.
Lemma recv_from_lt : forall p i, 0 < n -> recv_from n p i < n.
Proof. intros. apply Nat.mod_upper_bound. lia. Qed.
Lemma mod_cases : forall x, x < 3 * n -> x mod n = if x <? n then x else if x <? 2 * n then x - n else x - 2 * n.
Proof.
  intros x H. destruct (Nat.ltb_spec x n); [now apply Nat.mod_small|].
  destruct (Nat.ltb_spec x (2 * n)).
  - symmetry. apply (Nat.mod_unique x n 1); lia.
  - symmetry. apply (Nat.mod_unique x n 2); lia.
Qed.
Ltac modc := rewrite !mod_cases by lia; repeat match goal with |- context[?a <? ?b] => destruct (Nat.ltb_spec a b) end; try lia.

(** Loop index i of the receiver is loop index i of the sender. *)
Lemma from_to : forall p i, p < n -> i < n -> recv_from n (send_to n p i) i = p.
Proof.
  intros p i Hp Hi. unfold recv_from, send_to. rewrite (mod_cases (p + n + i)) by lia.
  destruct (Nat.ltb_spec (p + n + i) n); [lia|]. destruct (Nat.ltb_spec (p + n + i) (2 * n)); modc.
Qed.
Lemma prev_send : forall p i, p < n -> i < n -> 3 <= i -> send_prev n (send_to n p i) = send_to n p (i - 3).
Proof.
  intros p i Hp Hi H3. unfold send_prev, send_to. rewrite (mod_cases (p + n + i)) by lia.
  destruct (Nat.ltb_spec (p + n + i) n); [lia|]. destruct (Nat.ltb_spec (p + n + i) (2 * n)); modc.
Qed.
Lemma prev_recv : forall p i, p < n -> i < n -> 3 <= i -> recv_prev n (recv_from n p i) = recv_from n p (i - 3).
Proof.
  intros p i Hp Hi H3. unfold recv_prev, recv_from. rewrite (mod_cases (p + n - i)) by lia.
  destruct (Nat.ltb_spec (p + n - i) n); [|destruct (Nat.ltb_spec (p + n - i) (2 * n)); [|lia]]; modc.
Qed.
Lemma reach : forall p q, p < n -> q < n -> exists i, i < n /\ send_to n p i = q.
Proof.
  intros p q Hp Hq. exists ((q + n - p) mod n). split; [apply Nat.mod_upper_bound; lia|]. unfold send_to.
  rewrite (mod_cases (q + n - p)) by lia.
  destruct (Nat.ltb_spec (q + n - p) n); [|destruct (Nat.ltb_spec (q + n - p) (2 * n)); [|lia]]; modc.
Qed.
(* The partner of index i determines i *)
Lemma reach_from : forall q p, p < n -> q < n -> exists i, i < n /\ recv_from n q i = p /\ send_to n p i = q.
Proof.
  intros q p Hp Hq. destruct (reach p q Hp Hq) as (i & Hi & E). exists i. split; [exact Hi|]. split; [|exact E].
  rewrite <- E. now apply from_to.
Qed.

Definition len p q := Nat.min (rc q p) (sc p q).

Record dinv (c : dcf T) : Prop := {
  dv_msg : forall p q, p < n -> q < n -> d_msg c p q = if d_ss c p q && negb (d_rd c q p) then Some (bread (src p) 0 (sc p q)) else None;
  dv_rd : forall p q, d_rd c q p = true -> d_ss c p q = true /\ d_rs c q p = true /\ p < n /\ q < n;
  dv_sd : forall p q, d_sd c p q = true -> d_ss c p q = true;
  dv_mem : forall p i, p < n -> (d_mem c p i = mem0 p i /\ forall q, d_rd c p q = true -> len q p <= i) \/
             exists q, q < n /\ d_rd c p q = true /\ i < len q p /\ d_mem c p i = src q i;
  dv_sent : forall p q s, In (p, q, s) (d_sent c) <-> (s = sc p q /\ d_ss c p q = true /\ p < n /\ q < n);
  dv_once : NoDup (map fst (d_sent c)) }.

Definition flags (c : dcf T) : nat := cnt2 (d_ss c) n n + cnt2 (d_sd c) n n + cnt2 (d_rs c) n n + cnt2 (d_rd c) n n.

Lemma dex_inv : forall k c, dex n src sc rc eager mem0 k c -> dinv c /\ flags c = k.
Proof.
  intros k c H. induction H as [|k c c' Hx (I & F) Hs].
  - split; [constructor; cbn; intros; try discriminate; auto|].
    + left. split; [reflexivity|]. intros q K. discriminate.
    + split; [intros []|intros (_ & K & _); discriminate].
    + constructor.
    + unfold flags. cbn [d_ss d_sd d_rs d_rd].
      assert (Z : forall a b, cnt2 (fun _ _ => false) a b = 0).
      { induction a as [|a IH]; intros b; cbn; [reflexivity|]. rewrite IH. induction b as [|b IHb]; cbn; lia. }
      rewrite Z. reflexivity.
  - destruct I as [I1 I2 I3 I4 I5 I6].
    destruct Hs as [c p i q Hp Hi Hq E0 _|c p i q Hp Hi Hq E0 _|c p q Hp Hq E0 E1 _|c p q m Hp Hq E0 E1];
      unfold flags in *; cbn [d_ss d_sd d_rs d_rd d_msg d_mem d_sent] in *.
    + assert (Hqn : q < n) by (subst q; apply send_to_lt; lia).
      assert (R0 : d_rd c q p = false) by (destruct (d_rd c q p) eqn:K; [destruct (I2 p q K); congruence|reflexivity]).
      split; [|rewrite cnt2_set by auto; lia]. constructor; cbn [d_ss d_sd d_rs d_rd d_msg d_mem d_sent]; auto.
      * intros a b Ha Hb. destruct (Nat.eq_dec a p) as [Ea|Na]; [destruct (Nat.eq_dec b q) as [Eb|Nb]|].
        -- subst a b. rewrite !upd2_in, R0. reflexivity.
        -- rewrite !upd2_out by congruence. now apply I1.
        -- rewrite !upd2_out by congruence. now apply I1.
      * intros a b K. destruct (I2 a b K) as (K1 & K2). split; [apply upd2_true; now right|exact K2].
      * intros a b K. apply upd2_true. right. now apply I3.
      * intros a b s. rewrite upd2_true. split.
        -- intros [K|K]; [injection K as <- <- <-; auto|]. apply I5 in K. intuition.
        -- intros (-> & [(-> & ->)|K] & Ha & Hb); [now left|]. right. apply I5. auto.
      * cbn [map fst]. constructor; [|exact I6]. intros K. apply in_map_iff in K. destruct K as ([[a b] s] & K1 & K2).
        injection K1 as -> ->. apply I5 in K2. destruct K2 as (_ & K2 & _). congruence.
    + assert (Hqn : q < n) by (subst q; apply recv_from_lt; lia).
      split; [|rewrite cnt2_set by auto; lia]. constructor; cbn [d_ss d_sd d_rs d_rd d_msg d_mem d_sent]; auto.
      intros a b K. destruct (I2 a b K) as (K1 & K2 & K3). split; [exact K1|]. split; [apply upd2_true; now right|exact K3].
    + split; [|rewrite cnt2_set by auto; lia]. constructor; cbn [d_ss d_sd d_rs d_rd d_msg d_mem d_sent]; auto.
      intros a b K. apply upd2_true in K. destruct K as [(-> & ->)|K]; [exact E0|now apply I3].
    + pose proof (I1 p q Hp Hq) as M. rewrite E0 in M. destruct (d_ss c p q) eqn:S1; [|discriminate].
      destruct (d_rd c q p) eqn:R1; [discriminate|]. cbn [andb negb] in M. injection M as M. subst m.
      split; [|rewrite cnt2_set by auto; lia]. constructor; cbn [d_ss d_sd d_rs d_rd d_msg d_mem d_sent]; auto.
      * intros a b Ha Hb. destruct (Nat.eq_dec a p) as [Ea|Na]; [destruct (Nat.eq_dec b q) as [Eb|Nb]|].
        -- subst a b. rewrite !upd2_in. now rewrite andb_false_r.
        -- rewrite !upd2_out by congruence. now apply I1.
        -- rewrite !upd2_out by congruence. now apply I1.
      * intros a b K. apply upd2_true in K. destruct K as [(-> & ->)|K]; [auto|now apply I2].
      * intros a i Ha. assert (L : length (firstn (rc q p) (bread (src p) 0 (sc p q))) = len p q)
          by (rewrite firstn_length, bread_length; reflexivity).
        destruct (Nat.eqb_spec a q) as [E|N].
        -- subst a. destruct (Nat.lt_ge_cases i (len p q)) as [Li|Li].
           ++ right. exists p. split; [exact Hp|]. split; [apply upd2_in|]. split; [exact Li|].
              rewrite (bwrite_in _ _ _ _ (src p 0)) by lia. rewrite Nat.sub_0_r.
              transitivity (nth i (bread (src p) 0 (sc p q)) (src p 0)); [|unfold len in Li; rewrite nth_bread by lia; reflexivity].
              rewrite <- (firstn_skipn (rc q p) (bread (src p) 0 (sc p q))) at 2. rewrite app_nth1 by lia. reflexivity.
           ++ rewrite bwrite_out by lia. destruct (I4 q i Ha) as [(V & O)|(b & Hb & Rb & Lb & V)].
              ** left. split; [exact V|]. intros b K. apply upd2_true in K. destruct K as [(_ & ->)|K]; [exact Li|now apply O].
              ** right. exists b. split; [exact Hb|]. split; [apply upd2_true; now right|auto].
        -- destruct (I4 a i Ha) as [(V & O)|(b & Hb & Rb & Lb & V)].
           ++ left. split; [exact V|]. intros b K. apply upd2_true in K. destruct K as [(-> & _)|K]; [contradiction|now apply O].
           ++ right. exists b. split; [exact Hb|]. split; [apply upd2_true; now right|auto].
Qed.

Lemma stuck_done : forall c, dinv c -> (forall c', ~ dst n src sc rc eager c c') ->
  forall i, i < n -> forall p, p < n -> d_sd c p (send_to n p i) = true /\ d_rd c (send_to n p i) p = true.
Proof.
  intros c I Hst i. induction i as [i IH] using lt_wf_ind. intros Hi p Hp. set (q := send_to n p i).
  assert (Hq : q < n) by (apply send_to_lt; lia).
  assert (Hss : d_ss c p q = true).
  { destruct (d_ss c p q) eqn:E; [reflexivity|exfalso]. eapply Hst. apply (d_send n src sc rc eager c p i q); auto.
    destruct (Nat.lt_ge_cases i 3) as [|H3]; [now left|right]. unfold q. rewrite prev_send by auto. apply (IH (i - 3)); lia. }
  assert (Hrs : d_rs c q p = true).
  { destruct (d_rs c q p) eqn:E; [reflexivity|exfalso]. eapply Hst. apply (d_post n src sc rc eager c q i p); auto.
    - unfold q. symmetry. now apply from_to.
    - destruct (Nat.lt_ge_cases i 3) as [|H3]; [now left|right]. rewrite <- (from_to p i Hp Hi) at 1. fold q. rewrite prev_recv by auto.
      set (p' := recv_from n q (i - 3)).
      assert (Hp' : p' < n) by (apply recv_from_lt; lia).
      assert (E' : send_to n p' (i - 3) = q).
      { unfold p', recv_from, send_to. rewrite (mod_cases (q + n - (i - 3))) by lia.
        destruct (Nat.ltb_spec (q + n - (i - 3)) n); [|destruct (Nat.ltb_spec (q + n - (i - 3)) (2 * n)); [|lia]];
        rewrite mod_cases by lia; repeat match goal with |- context[?a <? ?b] => destruct (Nat.ltb_spec a b) end; lia. }
      destruct (IH (i - 3) ltac:(lia) ltac:(lia) p' Hp') as (_ & K). rewrite E' in K. exact K. }
  assert (Hrd : d_rd c q p = true).
  { destruct (d_rd c q p) eqn:E; [reflexivity|exfalso]. pose proof (dv_msg c I p q Hp Hq) as M. rewrite Hss, E in M. cbn [andb negb] in M.
    eapply Hst. exact (d_recv n src sc rc eager c p q _ Hp Hq M Hrs). }
  split; [|exact Hrd]. destruct (d_sd c p q) eqn:E; [reflexivity|exfalso].
  eapply Hst. apply (d_done n src sc rc eager c p q); auto.
Qed.
End Direct.
