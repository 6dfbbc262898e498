(* Properties of packetization: C41, C90. *)
From Coq Require Import List ZArith Bool Arith Lia Permutation.
From Verif Require Import ListFacts NpModel.
Import ListNotations.
Local Open Scope Z_scope.

(* ---------- specification ---------- *)

Definition bytes_of (l : list packet) : Z := fold_right (fun p a => k_bytes p + a) 0 l.

(* ps are the packets of m: none larger than the MTU, their sizes add up to the message,
   only the last one carries the message, and none is empty unless it is the only one. *)
Record whole (mtu : Z) (m : msg) (ps : list packet) : Prop := {
  h_id : forall p, In p ps -> k_id p = m_id m;
  h_size : forall p, In p ps -> 0 <= k_bytes p <= mtu;
  h_sum : bytes_of ps = m_len m;
  h_tail : exists l t, ps = l ++ [t] /\ k_msg t = Some m /\ forall p, In p l -> k_msg p = None;
  h_pos : forall p, In p ps -> 0 < k_bytes p \/ ps = [p]
}.

Definition sent (l : list act) : list msg := flat_map (fun a => match a with Send m => [m] | Credit _ => [] end) l.
Definition returned (l : list act) : Z := fold_right (fun a z => match a with Send _ => z | Credit n => n + z end) 0 l.

(* The packets of message number i *)
Definition with_id (i : nat) (l : list packet) : list packet := filter (fun p => Nat.eqb (k_id p) i) l.

(* ---------- sending ---------- *)

Lemma bytes_app : forall l l', bytes_of (l ++ l') = bytes_of l + bytes_of l'.
Proof. induction l as [|p l IH]; intro l'; [reflexivity|]. cbn. fold (bytes_of (l ++ l')). rewrite IH. unfold bytes_of. lia. Qed.

Lemma bytes_cons : forall p l, bytes_of (p :: l) = k_bytes p + bytes_of l.
Proof. reflexivity. Qed.

(* ps are the packets of m from the byte off on. *)
Record rest_of (mtu : Z) (m : msg) (off : Z) (ps : list packet) : Prop := {
  r_id : forall p, In p ps -> k_id p = m_id m;
  r_size : forall p, In p ps -> 0 < k_bytes p <= mtu;
  r_sum : bytes_of ps = m_len m - off;
  r_tail : exists l t, ps = l ++ [t] /\ k_msg t = Some m /\ forall p, In p l -> k_msg p = None
}.

Lemma rest_whole : forall mtu m ps, rest_of mtu m 0 ps -> whole mtu m ps.
Proof.
  intros mtu m ps R. constructor; intros; try apply R; auto.
  - apply (r_size _ _ _ _ R) in H. lia.
  - rewrite (r_sum _ _ _ _ R). lia.
  - left. apply (r_size _ _ _ _ R) in H. lia.
Qed.

Lemma rest_exists : forall mtu m, 0 < mtu -> forall n off, (Z.to_nat (m_len m - off) <= n)%nat -> off < m_len m ->
  exists ps, rest_of mtu m off ps.
Proof.
  intros mtu m HM. induction n as [|n IH]; intros off L O; [lia|].
  destruct (Z.leb_spec (m_len m - off) mtu).
  - exists [{| k_msg := Some m; k_bytes := m_len m - off; k_id := m_id m |}]. constructor.
    + intros p [<-|[]]. reflexivity.
    + intros p [<-|[]]. cbn. lia.
    + cbn. lia.
    + exists [], {| k_msg := Some m; k_bytes := m_len m - off; k_id := m_id m |}.
      split; [reflexivity|]. split; [reflexivity|]. intros p [].
  - destruct (IH (off + mtu)) as [ps R]; [lia|lia|].
    exists ({| k_msg := None; k_bytes := mtu; k_id := m_id m |} :: ps). constructor.
    + intros p [<-|P]; [reflexivity|apply (r_id _ _ _ _ R p P)].
    + intros p [<-|P]; [cbn; lia|apply (r_size _ _ _ _ R p P)].
    + cbn. fold (bytes_of ps). rewrite (r_sum _ _ _ _ R). lia.
    + destruct (r_tail _ _ _ _ R) as [l [t [E [T N]]]].
      exists ({| k_msg := None; k_bytes := mtu; k_id := m_id m |} :: l), t.
      split; [rewrite E; reflexivity|]. split; [exact T|]. intros p [<-|P]; [reflexivity|auto].
Qed.

Lemma inject_spec : forall mtu m, 0 < mtu -> forall fuel off credit o c ps,
  (Z.to_nat (m_len m - off) <= fuel)%nat -> off < m_len m ->
  inject_loop fuel mtu m off credit = (o, c, ps) ->
  off <= o /\ c = credit - (o - off) /\ bytes_of ps = o - off /\ (0 <= credit -> 0 <= c) /\
  ((o = m_len m /\ rest_of mtu m off ps) \/
   (o < m_len m /\ c < mtu /\ forall qs, rest_of mtu m o qs -> rest_of mtu m off (ps ++ qs))).
Proof.
  intros mtu m HM. induction fuel as [|f IH]; intros off credit o c ps F O E; [lia|].
  cbn [inject_loop] in E. destruct (Z.leb_spec mtu credit) as [C|C].
  - destruct (Z.eqb_spec (off + Z.min mtu (m_len m - off)) (m_len m)) as [T|T].
    + injection E as <- <- <-. cbn [bytes_of fold_right k_bytes].
      repeat split; try lia. left. split; [exact T|]. constructor.
      * intros p [<-|[]]. reflexivity.
      * intros p [<-|[]]. cbn. lia.
      * cbn. lia.
      * eexists [], _. split; [reflexivity|]. split; [reflexivity|]. intros p [].
    + assert (MM : mtu < m_len m - off) by lia.
      replace (Z.min mtu (m_len m - off)) with mtu in * by lia.
      destruct (inject_loop f mtu m (off + mtu) (credit - mtu)) as [[o' c'] ps'] eqn:L.
      injection E as <- <- <-.
      destruct (IH (off + mtu) (credit - mtu) o' c' ps') as [A [B [D [G H]]]]; [lia|lia|exact L|].
      rewrite bytes_cons. cbn [k_bytes].
      split; [lia|]. split; [lia|]. split; [lia|]. split; [intro; apply G; lia|].
      assert (K : forall qs, rest_of mtu m (off + mtu) qs ->
        rest_of mtu m off ({| k_msg := None; k_bytes := mtu; k_id := m_id m |} :: qs)).
      { intros qs R. constructor.
        - intros p [<-|P]; [reflexivity|apply (r_id _ _ _ _ R p P)].
        - intros p [<-|P]; [cbn; lia|apply (r_size _ _ _ _ R p P)].
        - cbn. fold (bytes_of qs). rewrite (r_sum _ _ _ _ R). lia.
        - destruct (r_tail _ _ _ _ R) as [l [t [E [T' N]]]].
          exists ({| k_msg := None; k_bytes := mtu; k_id := m_id m |} :: l), t.
          split; [rewrite E; reflexivity|]. split; [exact T'|]. intros p [<-|P]; [reflexivity|auto]. }
      destruct H as [[H1 H2]|[H1 [H2 H3]]].
      * left. split; [exact H1|]. apply K, H2.
      * right. split; [exact H1|]. split; [exact H2|]. intros qs R. cbn [app]. apply K, H3, R.
  - injection E as <- <- <-. cbn [bytes_of fold_right]. repeat split; try lia.
    right. split; [exact O|]. split; [exact C|]. intros qs R. exact R.
Qed.

(* ps are the packets still to be sent for the pending messages. *)
Inductive left_over (mtu : Z) : list (msg * Z) -> list packet -> Prop :=
| lo_nil : left_over mtu [] []
| lo_cons : forall m off ps r qs, off < m_len m -> rest_of mtu m off ps -> left_over mtu r qs ->
    left_over mtu ((m, off) :: r) (ps ++ qs).

Definition ok (mtu : Z) (s : nic) : Prop :=
  (forall m off, In (m, off) (c_pend s) -> off < m_len m) /\ (c_pend s <> [] -> c_credit s < mtu) /\ 0 <= c_credit s.

Lemma left_over_snoc : forall mtu l ps m qs, left_over mtu l ps -> 0 < m_len m -> rest_of mtu m 0 qs ->
  left_over mtu (l ++ [(m, 0)]) (ps ++ qs).
Proof.
  intros mtu l ps m qs L P R. induction L; cbn [app].
  - rewrite <- (app_nil_r qs). constructor; [exact P|exact R|constructor].
  - rewrite <- app_assoc. constructor; auto.
Qed.

(* One resume: what it sends are the first of the packets left. *)
Lemma resume_spec : forall mtu, 0 < mtu -> forall pend credit c r ps,
  (forall m off, In (m, off) pend -> off < m_len m) -> 0 <= credit ->
  resume mtu pend credit = (c, r, ps) ->
  0 <= c /\ c = credit - bytes_of ps /\ (forall m off, In (m, off) r -> off < m_len m) /\
  (r <> [] -> c < mtu) /\
  (forall qs, left_over mtu r qs -> left_over mtu pend (ps ++ qs)).
Proof.
  intros mtu HM. induction pend as [|[m off] pend IH]; intros credit c r ps H P E; cbn [resume] in E.
  - injection E as <- <- <-. cbn. repeat split; auto; try lia. congruence.
  - destruct (inject mtu m off credit) as [[o c1] p1] eqn:I.
    assert (O : off < m_len m) by (apply H; left; reflexivity).
    destruct (inject_spec mtu m HM _ off credit o c1 p1 (le_n _) O I) as [A [B [D [G K]]]].
    destruct (Z.eqb_spec o (m_len m)) as [T|T].
    + destruct K as [[_ R]|[K _]]; [|lia].
      destruct (resume mtu pend c1) as [[c' r'] ps'] eqn:RS. injection E as <- <- <-.
      destruct (IH c1 c' r' ps') as [X1 [X2 [X3 [X4 X5]]]]; auto; [intros; apply H; right; assumption|].
      rewrite bytes_app. repeat split; auto; try lia.
      intros qs L. rewrite <- app_assoc. constructor; auto.
    + destruct K as [[K _]|[K1 [K2 K3]]]; [contradiction|]. injection E as <- <- <-.
      repeat split; auto; try lia.
      * intros m' o' [X|X]; [injection X as <- <-; exact K1|apply H; right; exact X].
      * intros qs L. inversion L as [|m' o' ps' r' qs' L1 L2 L3]; subst.
        rewrite app_assoc. constructor; auto.
Qed.

(* The messages of a list of packets, one after the other *)
Definition cuts (mtu : Z) (ms : list msg) (ps : list packet) : Prop :=
  exists chunks, Forall2 (whole mtu) ms chunks /\ ps = concat chunks.

Lemma cuts_app : forall mtu ms ms' ps ps', cuts mtu ms ps -> cuts mtu ms' ps' -> cuts mtu (ms ++ ms') (ps ++ ps').
Proof.
  intros mtu ms ms' ps ps' [a [A ->]] [b [B ->]]. exists (a ++ b). split; [apply Forall2_app; auto|].
  rewrite concat_app. reflexivity.
Qed.

(* If the packets left of the pending messages complete earlier ones, the run does. *)
Lemma run_spec : forall mtu, 0 < mtu -> forall l s s' ps,
  ok mtu s -> (forall m, In m (sent l) -> 0 < m_len m) -> (forall n, In (Credit n) l -> 0 <= n) ->
  nic_run mtu s l = (s', ps) ->
  ok mtu s' /\ c_credit s' + bytes_of ps = c_credit s + returned l /\
  forall ms e, (forall qs, left_over mtu (c_pend s) qs -> cuts mtu ms (e ++ qs)) ->
  forall qs, left_over mtu (c_pend s') qs -> cuts mtu (ms ++ sent l) ((e ++ ps) ++ qs).
Proof.
  intros mtu HM. induction l as [|a l IH]; intros s s' ps OK S C E; cbn [nic_run] in E.
  - injection E as <- <-. cbn [sent flat_map returned fold_right bytes_of]. split; [exact OK|]. split; [lia|].
    intros ms e H qs L. rewrite !app_nil_r. auto.
  - destruct (nic_step mtu s a) as [s1 p1] eqn:ST. destruct (nic_run mtu s1 l) as [s2 p2] eqn:R.
    injection E as <- <-. destruct OK as [O1 [O2 O3]].
    assert (STEP : ok mtu s1 /\ c_credit s1 + bytes_of p1 = c_credit s + returned [a] /\
      forall ms e, (forall qs, left_over mtu (c_pend s) qs -> cuts mtu ms (e ++ qs)) ->
      forall qs, left_over mtu (c_pend s1) qs -> cuts mtu (ms ++ sent [a]) ((e ++ p1) ++ qs)).
    { destruct a as [m|n]; cbn [nic_step] in ST.
      - unfold do_send in ST. destruct (inject mtu m 0 (c_credit s)) as [[o c] ps1] eqn:I.
        assert (ML : 0 < m_len m) by (apply S; left; reflexivity).
        pose proof (inject_spec mtu m HM _ 0 (c_credit s) o c ps1 (le_n _) ML I) as [A [B [D [G K]]]].
        cbn [sent flat_map app returned fold_right].
        destruct (c_pend s) as [|p0 pr] eqn:PE.
        + destruct K as [[K1 K2]|[K1 [K2 K3]]].
          * destruct (Z.ltb_spec o (m_len m)); [lia|]. injection ST as <- <-. cbn [c_pend c_credit].
            split; [split; [intros ? ? []|split; [intro X; exfalso; apply X; reflexivity|cbn; lia]]|]. split; [lia|].
            intros ms e H' qs L. inversion L; subst. rewrite app_nil_r.
            apply cuts_app; [specialize (H' [] (lo_nil mtu)); rewrite app_nil_r in H'; exact H'|].
            exists [ps1]. split; [constructor; [apply rest_whole, K2|constructor]|cbn; rewrite app_nil_r; reflexivity].
          * destruct (Z.ltb_spec o (m_len m)); [|lia]. injection ST as <- <-. cbn [c_pend c_credit app].
            split.
            { split; [intros m' o' [X|[]]; injection X as <- <-; exact K1|].
              split; [intros _; exact K2|cbn; lia]. }
            split; [lia|].
            intros ms e H' qs L. inversion L as [|m' o' ps' r' qs' L1 L2 L3]; subst. inversion L3; subst.
            rewrite app_nil_r, <- app_assoc.
            apply cuts_app; [specialize (H' [] (lo_nil mtu)); rewrite app_nil_r in H'; exact H'|].
            exists [ps1 ++ ps']. split; [constructor; [apply rest_whole, K3, L2|constructor]|cbn; rewrite app_nil_r; reflexivity].
        + assert (CM : c_credit s < mtu) by (apply O2; discriminate).
          assert (X : o = 0 /\ c = c_credit s /\ ps1 = []).
          { unfold inject in I. destruct (Z.to_nat (m_len m - 0)); cbn [inject_loop] in I;
              destruct (Z.leb_spec mtu (c_credit s)); try lia; injection I as <- <- <-; auto. }
          destruct X as [-> [-> ->]]. destruct (Z.ltb_spec 0 (m_len m)); [|lia]. injection ST as <- <-.
          cbn [c_pend c_credit bytes_of fold_right].
          split.
          { split; [|split; [intros _; exact CM|exact O3]].
            intros m' o' X. cbn [c_pend] in X. change (In (m', o') ((p0 :: pr) ++ [(m, 0)])) in X.
            apply in_app_iff in X. destruct X as [X|[X|[]]]; [apply O1; exact X|injection X as <- <-; exact ML]. }
          split; [lia|].
          intros ms e H' qs L. rewrite app_nil_r.
          assert (SP : exists q1 q2, qs = q1 ++ q2 /\ left_over mtu (p0 :: pr) q1 /\ rest_of mtu m 0 q2).
          { change (left_over mtu ((p0 :: pr) ++ [(m, 0)]) qs) in L. clear - L. revert L. generalize (p0 :: pr). intro l. revert qs.
            induction l as [|[m1 o1] l IHl]; intros qs L; cbn [app] in L.
            - inversion L as [|m' o' ps' r' qs' L1 L2 L3]; subst. inversion L3; subst. rewrite app_nil_r.
              exists [], ps'. split; [reflexivity|]. split; [constructor|exact L2].
            - inversion L as [|m' o' ps' r' qs' L1 L2 L3]; subst.
              destruct (IHl qs' L3) as [q1 [q2 [-> [X Y]]]].
              exists (ps' ++ q1), q2. split; [rewrite app_assoc; reflexivity|]. split; [constructor; auto|exact Y]. }
          destruct SP as [q1 [q2 [-> [X Y]]]]. rewrite app_assoc. apply cuts_app; [apply H', X|].
          exists [q2]. split; [constructor; [apply rest_whole, Y|constructor]|cbn; rewrite app_nil_r; reflexivity].
      - unfold packet_sent in ST. destruct (resume mtu (c_pend s) (c_credit s + n)) as [[c r] ps1] eqn:RS.
        injection ST as <- <-.
        assert (NN : 0 <= n) by (apply C; left; reflexivity).
        destruct (resume_spec mtu HM (c_pend s) (c_credit s + n) c r ps1 O1 ltac:(lia) RS) as [X1 [X2 [X3 [X4 X5]]]].
        cbn [c_pend c_credit sent flat_map app returned fold_right].
        split; [split; [exact X3|split; [exact X4|exact X1]]|]. split; [lia|].
        intros ms e H' qs L. rewrite app_nil_r, <- app_assoc. apply H', X5, L. }
    destruct STEP as [K1 [K2 K3]].
    destruct (IH s1 s2 p2) as [Q1 [Q2 Q3]]; auto.
    { intros m M. apply S. cbn [sent flat_map]. apply in_app_iff. right. exact M. }
    { intros n N. apply C. right. exact N. }
    split; [exact Q1|]. split.
    { rewrite bytes_app. cbn [returned fold_right] in *. destruct a; unfold returned in *; lia. }
    intros ms e H' qs L.
    assert (SE : ms ++ sent (a :: l) = (ms ++ sent [a]) ++ sent l).
    { cbn [sent flat_map]. rewrite app_nil_r, app_assoc. reflexivity. }
    rewrite SE, (app_assoc e p1 p2). apply Q3; [|exact L]. intros qs' L'. apply K3; auto.
Qed.

Lemma left_over_exists : forall mtu, 0 < mtu -> forall l, (forall m off, In (m, off) l -> off < m_len m) ->
  exists qs, left_over mtu l qs.
Proof.
  intros mtu HM. induction l as [|[m off] l IH]; intro H; [exists []; constructor|].
  destruct IH as [qs L]; [intros; apply H; right; assumption|].
  assert (O : off < m_len m) by (apply H; left; reflexivity).
  destruct (rest_exists mtu m HM _ off (le_n _) O) as [ps R]. exists (ps ++ qs). constructor; auto.
Qed.

(* ---------- C41, sending ---------- *)

(* Whatever the order of sends and credit returns, the packets so far, with those still to
   come, are the packets of the messages sent, one message after the other; when all credits
   have come back, they are all out. *)
Theorem packets_make_up_messages_partial : forall mtu credit l s ps,
  0 < mtu -> mtu <= credit ->
  (forall m, In m (sent l) -> 0 < m_len m) -> (forall n, In (Credit n) l -> 0 <= n) ->
  nic_run mtu {| c_credit := credit; c_pend := [] |} l = (s, ps) ->
  (exists rest chunks, Forall2 (whole mtu) (sent l) chunks /\ ps ++ rest = concat chunks) /\
  c_credit s + bytes_of ps = credit + returned l /\
  (returned l = bytes_of ps -> exists chunks, Forall2 (whole mtu) (sent l) chunks /\ ps = concat chunks).
Proof.
  intros mtu credit l s ps HM HC S C E.
  assert (OK : ok mtu {| c_credit := credit; c_pend := [] |}).
  { split; [intros ? ? []|]. split; [intro X; exfalso; apply X; reflexivity|cbn; lia]. }
  destruct (run_spec mtu HM l _ s ps OK S C E) as [[O1 [O2 O3]] [B K]]. cbn [c_credit] in B.
  assert (K' : forall qs, left_over mtu (c_pend s) qs -> cuts mtu (sent l) (ps ++ qs)).
  { intros qs L. apply (K [] []); [|exact L]. intros q Q. inversion Q; subst. exists []. split; [constructor|reflexivity]. }
  split; [|split; [exact B|]].
  - destruct (left_over_exists mtu HM (c_pend s) O1) as [qs L]. destruct (K' qs L) as [ch [X Y]]. exists qs, ch. auto.
  - intro R. destruct (c_pend s) as [|p0 pr] eqn:P.
    + destruct (K' [] (lo_nil mtu)) as [ch [X Y]]. rewrite app_nil_r in Y. exists ch. auto.
    + exfalso. assert (c_credit s < mtu) by (apply O2; discriminate). lia.
Qed.
Print Assumptions packets_make_up_messages_partial.

(* ---------- receiving ---------- *)

Definition has_tail (l : list packet) : option msg :=
  fold_right (fun p a => match k_msg p with Some m => Some m | None => a end) None l.

Lemma has_tail_app : forall l p, has_tail (l ++ [p]) = match has_tail l with Some m => Some m | None => k_msg p end.
Proof.
  induction l as [|x l IH]; intro p; cbn [app has_tail fold_right].
  - destruct (k_msg p); reflexivity.
  - fold (has_tail (l ++ [p])). fold (has_tail l). rewrite IH. destruct (k_msg x); reflexivity.
Qed.

(* The entry of a message of which the packets l came and some are missing *)
Definition entry (l : list packet) : incoming :=
  {| a_msg := has_tail l; a_arrived := bytes_of l; a_total := match has_tail l with Some m => m_len m | None => 0 end |}.

Lemma bytes_perm : forall l l', Permutation l l' -> bytes_of l = bytes_of l'.
Proof. intros l l' P. induction P; rewrite ?bytes_cons in *; lia. Qed.

Lemma tail_in : forall l t m, In t l -> k_msg t = Some m -> has_tail l <> None.
Proof.
  induction l as [|p l IH]; intros t m I T; [destruct I|]. cbn [has_tail fold_right]. fold (has_tail l).
  destruct I as [->|I]; [rewrite T; discriminate|]. destruct (k_msg p); [discriminate|]. apply (IH t m); auto.
Qed.

Section Recv.
Variables (m : msg) (all : list packet) (mtu : Z).
Hypothesis WH : exists ps, whole mtu m ps /\ Permutation all ps.
Hypothesis LEN : m_len m < 2 ^ 64.

Lemma all_sum : bytes_of all = m_len m.
Proof.
  destruct WH as [ps [H P]]. rewrite <- (h_sum _ _ _ H). apply bytes_perm, P.
Qed.

Lemma all_pos : forall p, In p all -> 0 < k_bytes p \/ all = [p].
Proof.
  destruct WH as [ps [H P]]. intros p I. destruct (h_pos _ _ _ H p (Permutation_in _ P I)) as [L|E]; [left; exact L|].
  right. subst ps. apply Permutation_sym, Permutation_length_1_inv in P. exact P.
Qed.

Lemma all_msg : forall p m', In p all -> k_msg p = Some m' -> m' = m.
Proof.
  destruct WH as [ps [H P]]. intros p m' I K. apply (Permutation_in _ P) in I.
  destruct (h_tail _ _ _ H) as [l [t [E [T N]]]]. subst ps. apply in_app_iff in I.
  destruct I as [I|[<-|[]]]; [rewrite (N p I) in K; discriminate|congruence].
Qed.

Lemma has_tail_in : forall l, (forall p, In p l -> In p all) -> has_tail l = None \/ has_tail l = Some m.
Proof.
  induction l as [|p l IH]; intro H; [left; reflexivity|]. cbn [has_tail fold_right]. fold (has_tail l).
  destruct (k_msg p) as [m'|] eqn:K; [right; f_equal; apply (all_msg p m'); [apply H; left; reflexivity|exact K]|].
  apply IH. intros x X. apply H. right. exact X.
Qed.

Lemma all_tail : has_tail all = Some m.
Proof.
  destruct (has_tail_in all (fun p I => I)) as [E|E]; [|exact E]. exfalso.
  destruct WH as [ps [H P]]. destruct (h_tail _ _ _ H) as [l [t [EP [T N]]]].
  assert (I : In t all) by (apply (Permutation_in _ (Permutation_sym P)); subst ps; apply in_app_iff; right; left; reflexivity).
  apply (tail_in all t m I T E).
Qed.

Lemma bytes_nonneg : forall l, (forall p, In p l -> In p all) -> 0 <= bytes_of l.
Proof.
  destruct WH as [ps [H P]]. induction l as [|p l IH]; intro X; [cbn; lia|]. cbn. fold (bytes_of l).
  assert (0 <= k_bytes p) by (apply (h_size _ _ _ H), (Permutation_in _ P), X; left; reflexivity).
  assert (0 <= bytes_of l) by (apply IH; intros; apply X; right; assumption). lia.
Qed.

(* One packet of m, after l1 and before l2 of the same message *)
Lemma recv_one : forall l1 p l2 q, all = l1 ++ p :: l2 -> k_id p = m_id m -> q (m_id m) = entry l1 ->
  exists f, recv q p = (f, match l2 with [] => Some m | _ => None end) /\
    (f (m_id m) = match l2 with [] => fresh | _ => entry (l1 ++ [p]) end) /\ forall i, i <> m_id m -> f i = q i.
Proof.
  intros l1 p l2 q EA ID Q.
  assert (SUM : bytes_of l1 + k_bytes p + bytes_of l2 = m_len m).
  { rewrite <- all_sum, EA, bytes_app. cbn. fold (bytes_of l2). lia. }
  assert (N1 : 0 <= bytes_of l1) by (apply bytes_nonneg; intros x X; rewrite EA; apply in_app_iff; auto).
  assert (N2 : 0 <= bytes_of l2) by (apply bytes_nonneg; intros x X; rewrite EA; apply in_app_iff; right; right; exact X).
  assert (NP : 0 <= bytes_of [p]) by (apply bytes_nonneg; intros x [<-|[]]; rewrite EA; apply in_app_iff; right; left; reflexivity).
  cbn in NP.
  assert (IN1 : forall x, In x l1 -> In x all) by (intros x X; rewrite EA; apply in_app_iff; auto).
  assert (HT : has_tail (l1 ++ [p]) = None \/ has_tail (l1 ++ [p]) = Some m).
  { apply has_tail_in. intros x X. apply in_app_iff in X. destruct X as [X|[<-|[]]]; auto.
    rewrite EA. apply in_app_iff. right. left. reflexivity. }
  assert (KM : forall m', k_msg p = Some m' -> m' = m).
  { intro m'. apply all_msg. rewrite EA. apply in_app_iff. right. left. reflexivity. }
  unfold recv. rewrite ID, Q.
  set (inc1 := match k_msg p with Some m0 => {| a_msg := Some m0; a_arrived := a_arrived (entry l1); a_total := m_len m0 |}
               | None => entry l1 end).
  assert (I1 : a_arrived inc1 = bytes_of l1) by (unfold inc1; destruct (k_msg p); reflexivity).
  assert (I2 : a_msg inc1 = has_tail (l1 ++ [p])).
  { unfold inc1. rewrite has_tail_app. destruct (k_msg p) as [m'|] eqn:K; cbn [entry a_msg].
    - rewrite (KM m' eq_refl). destruct (has_tail_in l1 IN1) as [->| ->]; reflexivity.
    - destruct (has_tail l1); reflexivity. }
  assert (I3 : a_total inc1 = match has_tail (l1 ++ [p]) with Some m0 => m_len m0 | None => 0 end).
  { unfold inc1. rewrite has_tail_app. destruct (k_msg p) as [m'|] eqn:K; cbn [entry a_total].
    - rewrite (KM m' eq_refl). destruct (has_tail_in l1 IN1) as [->| ->]; reflexivity.
    - destruct (has_tail l1); reflexivity. }
  rewrite I1, Z.mod_small by lia.
  destruct l2 as [|p2 l2].
  - cbn in SUM. rewrite I3.
    assert (T : has_tail (l1 ++ [p]) = Some m) by (rewrite <- EA; apply all_tail).
    rewrite T. destruct (Z.eqb_spec (bytes_of l1 + k_bytes p) (m_len m)); [|lia].
    eexists. split; [rewrite I2, T; reflexivity|]. split; [rewrite Nat.eqb_refl; reflexivity|].
    intros i N. destruct (Nat.eqb_spec i (m_id m)); [contradiction|reflexivity].
  - assert (P2 : 0 < k_bytes p2).
    { destruct (all_pos p2) as [L|E]; [rewrite EA; apply in_app_iff; right; right; left; reflexivity|exact L|].
      rewrite EA in E. exfalso. apply (f_equal (@length _)) in E. rewrite app_length in E. cbn in E. lia. }
    assert (P1 : 0 < k_bytes p).
    { destruct (all_pos p) as [L|E]; [rewrite EA; apply in_app_iff; right; left; reflexivity|exact L|].
      rewrite EA in E. exfalso. apply (f_equal (@length _)) in E. rewrite app_length in E. cbn in E. lia. }
    assert (N3 : 0 <= bytes_of l2) by (apply bytes_nonneg; intros x X; rewrite EA; apply in_app_iff; right; right; right; exact X).
    cbn in SUM. fold (bytes_of l2) in SUM. rewrite I3.
    assert (NE : bytes_of l1 + k_bytes p <> match has_tail (l1 ++ [p]) with Some m0 => m_len m0 | None => 0 end).
    { destruct HT as [-> | ->]; lia. }
    destruct (Z.eqb_spec (bytes_of l1 + k_bytes p) (match has_tail (l1 ++ [p]) with Some m0 => m_len m0 | None => 0 end)); [contradiction|].
    eexists. split; [reflexivity|]. split.
    + rewrite Nat.eqb_refl, I2. unfold entry. rewrite bytes_app. cbn [bytes_of fold_right]. f_equal. lia.
    + intros i N. destruct (Nat.eqb_spec i (m_id m)); [contradiction|reflexivity].
Qed.
End Recv.

(* ---------- C41, receiving ---------- *)

Definition message_of (ms : list msg) (i : nat) : option msg := find (fun m => Nat.eqb (m_id m) i) ms.

Lemma message_of_in : forall ms m, NoDup (map m_id ms) -> In m ms -> message_of ms (m_id m) = Some m.
Proof.
  induction ms as [|x ms IH]; intros m N I; [destruct I|]. cbn [map] in N. apply NoDup_cons_iff in N. destruct N as [N1 N2].
  unfold message_of. cbn [find]. destruct (Nat.eqb_spec (m_id x) (m_id m)) as [E|E].
  - destruct I as [->|I]; [reflexivity|]. exfalso. apply N1. rewrite E. apply in_map, I.
  - destruct I as [->|I]; [contradiction|]. apply IH; auto.
Qed.

Lemma with_id_app : forall i l l', with_id i (l ++ l') = with_id i l ++ with_id i l'.
Proof. intros. apply filter_app. Qed.

Lemma with_id_all : forall i l, (forall p, In p l -> k_id p = i) -> with_id i l = l.
Proof.
  intros i. induction l as [|p l IH]; intro H; [reflexivity|]. cbn [with_id filter].
  rewrite (H p (or_introl eq_refl)), Nat.eqb_refl. f_equal. apply IH. intros; apply H; right; assumption.
Qed.

Lemma with_id_none : forall i l, (forall p, In p l -> k_id p <> i) -> with_id i l = [].
Proof.
  intros i. induction l as [|p l IH]; intro H; [reflexivity|]. cbn [with_id filter].
  destruct (Nat.eqb_spec (k_id p) i) as [E|_]; [exfalso; apply (H p (or_introl eq_refl) E)|].
  apply IH. intros; apply H; right; assumption.
Qed.

Lemma with_id_concat : forall mtu ms chunks, Forall2 (whole mtu) ms chunks -> NoDup (map m_id ms) ->
  (forall p, In p (concat chunks) -> exists m, In m ms /\ k_id p = m_id m) /\
  forall m, In m ms -> exists ps, whole mtu m ps /\ with_id (m_id m) (concat chunks) = ps.
Proof.
  intros mtu ms chunks F. induction F as [|m ps ms chunks W F IH]; intro N.
  - split; [intros p []|intros m []].
  - cbn [map] in N. apply NoDup_cons_iff in N. destruct N as [N1 N2]. destruct (IH N2) as [I1 I2]. cbn [concat]. split.
    + intros p P. apply in_app_iff in P. destruct P as [P|P].
      * exists m. split; [left; reflexivity|apply (h_id _ _ _ W p P)].
      * destruct (I1 p P) as [m' [A B]]. exists m'. split; [right; exact A|exact B].
    + intros m' [<-|M].
      * exists ps. split; [exact W|]. rewrite with_id_app, (with_id_all _ ps), with_id_none; [apply app_nil_r| |apply W].
        intros p P E. destruct (I1 p P) as [m2 [A B]]. apply N1. rewrite <- E, B. apply in_map, A.
      * destruct (I2 m' M) as [ps' [A B]]. exists ps'. split; [exact A|]. rewrite with_id_app, with_id_none; [exact B|].
        intros p P E. rewrite (h_id _ _ _ W p P) in E. apply N1. rewrite E. apply in_map, M.
Qed.

Lemma perm_filter : forall A (f : A -> bool) l l', Permutation l l' -> Permutation (filter f l) (filter f l').
Proof.
  intros A f l l' P. induction P; cbn [filter].
  - constructor.
  - destruct (f x); [constructor|]; assumption.
  - destruct (f x), (f y); try constructor; try reflexivity.
  - etransitivity; eassumption.
Qed.

(* What packetArrived should report for a sequence of packets: the message, on its last packet *)
Fixpoint on_last (look : nat -> option msg) (l : list packet) : list (option msg) :=
  match l with
  | [] => []
  | p :: r => (if existsb (fun x => Nat.eqb (k_id x) (k_id p)) r then None else look (k_id p)) :: on_last look r
  end.

Lemma existsb_with_id : forall i l, existsb (fun x => Nat.eqb (k_id x) i) l = match with_id i l with [] => false | _ => true end.
Proof.
  intros i. induction l as [|p l IH]; [reflexivity|]. cbn [existsb with_id filter].
  destruct (Nat.eqb (k_id p) i); [reflexivity|exact IH].
Qed.

Theorem completes_on_last_packet : forall mtu ms chunks arr,
  NoDup (map m_id ms) -> (forall m, In m ms -> m_len m < 2 ^ 64) ->
  Forall2 (whole mtu) ms chunks -> Permutation arr (concat chunks) ->
  recv_all cq0 arr = on_last (message_of ms) arr.
Proof.
  intros mtu ms chunks arr ND LEN F P.
  destruct (with_id_concat mtu ms chunks F ND) as [IDS WH].
  assert (G : forall a2 a1 q, arr = a1 ++ a2 ->
    (forall m, In m ms -> with_id (m_id m) a2 <> [] -> q (m_id m) = entry (with_id (m_id m) a1)) ->
    recv_all q a2 = on_last (message_of ms) a2).
  { induction a2 as [|p a2 IH]; intros a1 q E Q; [reflexivity|]. cbn [recv_all on_last].
    assert (PI : In p (concat chunks)) by (apply (Permutation_in _ P); rewrite E; apply in_app_iff; right; left; reflexivity).
    destruct (IDS p PI) as [m [MI ID]].
    assert (EA : with_id (m_id m) arr = with_id (m_id m) a1 ++ p :: with_id (m_id m) a2).
    { rewrite E, with_id_app. cbn [with_id filter]. rewrite ID, Nat.eqb_refl. reflexivity. }
    assert (W2 : exists ps, whole mtu m ps /\ Permutation (with_id (m_id m) arr) ps).
    { destruct (WH m MI) as [ps [A B]]. exists ps. split; [exact A|]. rewrite <- B. apply perm_filter, P. }
    assert (QM : q (m_id m) = entry (with_id (m_id m) a1)).
    { apply Q; [exact MI|]. cbn [with_id filter]. rewrite ID, Nat.eqb_refl. discriminate. }
    destruct (recv_one m (with_id (m_id m) arr) mtu W2 (LEN m MI) _ p _ q EA ID QM) as [f [R [F1 F2]]].
    rewrite R, ID, existsb_with_id, (message_of_in ms m ND MI).
    rewrite (IH (a1 ++ [p]) f).
    - destruct (with_id (m_id m) a2); reflexivity.
    - rewrite E, <- app_assoc. reflexivity.
    - intros m' M' NE. rewrite with_id_app. cbn [with_id filter].
      destruct (Nat.eqb_spec (k_id p) (m_id m')) as [E'|E'].
      + assert (EM : m_id m' = m_id m) by congruence. rewrite EM in *. rewrite F1.
        destruct (with_id (m_id m) a2); [contradiction|reflexivity].
      + rewrite app_nil_r, F2 by congruence. apply Q; [exact M'|].
        cbn [with_id filter]. destruct (Nat.eqb_spec (k_id p) (m_id m')); [contradiction|exact NE]. }
  apply (G arr [] cq0); [reflexivity|]. intros m M _. reflexivity.
Qed.
Print Assumptions completes_on_last_packet.

(* Each message is reported exactly once. *)
Definition reported (l : list (option msg)) : list msg := flat_map (fun o => match o with Some m => [m] | None => [] end) l.

Theorem each_message_completes_once : forall mtu ms chunks arr,
  NoDup (map m_id ms) -> (forall m, In m ms -> m_len m < 2 ^ 64) ->
  Forall2 (whole mtu) ms chunks -> Permutation arr (concat chunks) ->
  Permutation (reported (recv_all cq0 arr)) ms.
Proof.
  intros mtu ms chunks arr ND LEN F P.
  rewrite (completes_on_last_packet mtu ms chunks arr ND LEN F P).
  destruct (with_id_concat mtu ms chunks F ND) as [IDS WH].
  assert (K : forall l, (forall p, In p l -> exists m, In m ms /\ k_id p = m_id m) ->
    map m_id (reported (on_last (message_of ms) l)) = nodup Nat.eq_dec (map k_id l) /\
    forall m, In m (reported (on_last (message_of ms) l)) -> In m ms).
  { induction l as [|p l IH]; intro H; [split; [reflexivity|intros m []]|].
    destruct IH as [I1 I2]; [intros; apply H; right; assumption|].
    destruct (H p (or_introl eq_refl)) as [m [MI ID]].
    cbn [on_last reported flat_map map nodup]. fold (reported (on_last (message_of ms) l)).
    destruct (in_dec Nat.eq_dec (k_id p) (map k_id l)) as [I|I].
    - assert (X : existsb (fun x => Nat.eqb (k_id x) (k_id p)) l = true).
      { apply in_map_iff in I. destruct I as [x [A B]]. apply existsb_exists. exists x. split; [exact B|apply Nat.eqb_eq, A]. }
      rewrite X. cbn [app]. split; assumption.
    - assert (X : existsb (fun x => Nat.eqb (k_id x) (k_id p)) l = false).
      { destruct (existsb (fun x => Nat.eqb (k_id x) (k_id p)) l) eqn:B; [|reflexivity]. exfalso. apply I.
        apply existsb_exists in B. destruct B as [x [A B]]. apply Nat.eqb_eq in B. rewrite <- B. apply in_map, A. }
      rewrite X, ID, (message_of_in ms m ND MI). cbn [app map]. split; [congruence|].
      intros m' [<-|M]; auto. }
  destruct (K arr) as [K1 K2].
  { intros p PI. apply IDS, (Permutation_in _ P), PI. }
  assert (ND2 : NoDup (reported (on_last (message_of ms) arr))).
  { apply (NoDup_map_inv m_id). rewrite K1. apply NoDup_nodup. }
  apply NoDup_Permutation; [exact ND2|apply (NoDup_map_inv m_id), ND|].
  intro m. split; [apply K2|]. intro MI.
  destruct (WH m MI) as [ps [W E]].
  assert (I : In (m_id m) (map m_id (reported (on_last (message_of ms) arr)))).
  { rewrite K1. apply nodup_In. destruct (h_tail _ _ _ W) as [l [t [EP _]]].
    assert (T : In t (with_id (m_id m) (concat chunks))) by (rewrite E, EP; apply in_app_iff; right; left; reflexivity).
    unfold with_id in T. apply filter_In in T. destruct T as [T1 T2]. apply Nat.eqb_eq in T2.
    rewrite <- T2. apply in_map, (Permutation_in _ (Permutation_sym P)), T1. }
  apply in_map_iff in I. destruct I as [m' [A B]].
  pose proof (message_of_in ms m ND MI) as X1. pose proof (message_of_in ms m' ND (K2 m' B)) as X2.
  rewrite A, X1 in X2. injection X2 as ->. exact B.
Qed.
Print Assumptions each_message_completes_once.

(* ---------- examples ---------- *)

Definition mA : msg := {| m_id := 5; m_len := 10 |}.
Definition mB : msg := {| m_id := 8; m_len := 3 |}.
Definition acts1 : list act := [Send mA; Send mB; Credit 4; Credit 4; Credit 2].

Example acts1_run : exists s ps, nic_run 4 {| c_credit := 7; c_pend := [] |} acts1 = (s, ps) /\
  map k_bytes ps = [4; 4; 2; 3] /\ map k_id ps = [5; 5; 5; 8]%nat /\ c_pend s = [] /\
  (exists chunks, Forall2 (whole 4) (sent acts1) chunks /\ ps = concat chunks).
Proof.
  destruct (nic_run 4 {| c_credit := 7; c_pend := [] |} acts1) as [s ps] eqn:E. exists s, ps.
  split; [reflexivity|].
  assert (P : fst (nic_run 4 {| c_credit := 7; c_pend := [] |} (acts1 ++ [Credit 3])) = {| c_credit := 7; c_pend := [] |} /\
    snd (nic_run 4 {| c_credit := 7; c_pend := [] |} (acts1 ++ [Credit 3])) = ps).
  { vm_compute in E. injection E as <- <-. vm_compute. auto. }
  vm_compute in E. injection E as <- <-. split; [reflexivity|]. split; [reflexivity|]. split; [reflexivity|].
  destruct (nic_run 4 {| c_credit := 7; c_pend := [] |} (acts1 ++ [Credit 3])) as [s ps] eqn:E2.
  destruct P as [_ P]. cbn [snd] in P. subst ps.
  apply (packets_make_up_messages_partial 4 7 (acts1 ++ [Credit 3]) s _ ltac:(lia) ltac:(lia)) in E2.
  - apply E2. reflexivity.
  - intros m [<-|[<-|[]]]; cbn; lia.
  - intros n H. cbn in H. repeat (destruct H as [H|H]; [try discriminate; injection H as <-; lia|]). destruct H.
Qed.

Definition pk (m : msg) (b : Z) (t : bool) : packet := {| k_msg := if t then Some m else None; k_bytes := b; k_id := m_id m |}.

(* The packets of the two messages, mixed, with the tail of the first before its other packets *)
Example mixed : recv_all cq0 [pk mA 2 true; pk mA 4 false; pk mB 3 true; pk mA 4 false] = [None; None; Some mB; Some mA].
Proof.
  rewrite (completes_on_last_packet 4 [mA; mB] [[pk mA 4 false; pk mA 4 false; pk mA 2 true]; [pk mB 3 true]]).
  - reflexivity.
  - repeat constructor; cbn; intuition discriminate.
  - intros m [<-|[<-|[]]]; cbn; lia.
  - constructor; [apply rest_whole; constructor|constructor; [apply rest_whole; constructor|constructor]].
    + intros p [<-|[<-|[<-|[]]]]; reflexivity.
    + intros p [<-|[<-|[<-|[]]]]; cbn; lia.
    + reflexivity.
    + exists [pk mA 4 false; pk mA 4 false], (pk mA 2 true). split; [reflexivity|]. split; [reflexivity|].
      intros p [<-|[<-|[]]]; reflexivity.
    + intros p [<-|[]]; reflexivity.
    + intros p [<-|[]]; cbn; lia.
    + reflexivity.
    + exists [], (pk mB 3 true). split; [reflexivity|]. split; [reflexivity|]. intros p [].
  - cbn. apply (Permutation_trans (l' := [pk mA 4 false; pk mA 2 true; pk mB 3 true; pk mA 4 false])); [constructor|].
    constructor. apply (Permutation_trans (l' := [pk mA 2 true; pk mA 4 false; pk mB 3 true])).
    + constructor. constructor.
    + constructor.
Qed.

(* ---------- C90: which messages use the network ---------- *)

(* A message with no bytes finds no credits: it is neither sent nor kept. *)
Theorem empty_message_lost_refuted : exists mtu s m,
  0 < mtu /\ ok mtu s /\ do_send mtu s m = (s, []).
Proof.
  exists 4, {| c_credit := 2; c_pend := [] |}, {| m_id := 1; m_len := 0 |}. split; [lia|].
  split; [split; [intros ? ? []|split; [intro X; exfalso; apply X; reflexivity|cbn; lia]]|reflexivity].
Qed.
Print Assumptions empty_message_lost_refuted.

(* Up to 2^31 - 1 bytes, exactly the messages larger than the limit use the network, *)
Theorem large_messages_use_network_partial : forall limit m, 0 <= m_len m < 2 ^ 31 ->
  uses_network limit m = true <-> limit < m_len m.
Proof.
  intros limit m H. unfold uses_network, negligible, to_int.
  rewrite Z.mod_small by lia. destruct (Z.ltb_spec (m_len m) (2 ^ 31)); [|lia].
  destruct (Z.leb_spec (m_len m) limit); cbn [negb]; split; intros; try discriminate; try lia; reflexivity.
Qed.
Print Assumptions large_messages_use_network_partial.

(* and the larger ones do not. *)
Theorem large_messages_use_network_refuted : exists limit m,
  0 <= limit < m_len m /\ m_len m < 2 ^ 64 /\ uses_network limit m = false.
Proof. exists 256, {| m_id := 1; m_len := 2 ^ 31 |}. split; [cbn; lia|]. split; [cbn; lia|reflexivity]. Qed.
Print Assumptions large_messages_use_network_refuted.

Example large_ok : uses_network 256 {| m_id := 1; m_len := 4096 |} = true.
Proof. apply large_messages_use_network_partial; cbn; lia. Qed.
