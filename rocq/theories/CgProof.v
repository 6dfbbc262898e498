(** Facts about the grid model. *)
From Coq Require Import List Arith Bool Lia.
From Verif Require Import CgModel.
Import ListNotations.

Definition prime (p : nat) : Prop := 2 <= p /\ forall d, Nat.divide d p -> d = 1 \/ d = p.

Definition prod (l : list nat) : nat := fold_right Nat.mul 1 l.

Lemma prod_app a b : prod (a ++ b) = prod a * prod b.
Proof. induction a as [|x a IH]; simpl; [lia|]. rewrite IH. lia. Qed.

Lemma mod_div x d : 0 < d -> x mod d = 0 -> x = d * (x / d).
Proof. intros P H. pose proof (Nat.div_mod x d ltac:(lia)). lia. Qed.

(** ** Trial division *)

Lemma twos_spec : forall fuel x l y, 1 <= x <= fuel -> twos fuel x = (l, y) ->
  prod l * y = x /\ Forall (fun p => p = 2) l /\ 1 <= y /\ (y = 1 \/ y mod 2 <> 0).
Proof.
  induction fuel as [|f IH]; intros x l y B H; [lia|]. cbn [twos] in H.
  destruct ((1 <? x) && (x mod 2 =? 0)) eqn:E.
  - apply andb_true_iff in E. destruct E as [E1 E2]. apply Nat.ltb_lt in E1. apply Nat.eqb_eq in E2.
    pose proof (mod_div x 2 ltac:(lia) E2) as D.
    destruct (twos f (x / 2)) as [l' y'] eqn:T. injection H as <- <-.
    apply IH in T; [|lia]. destruct T as (A & F & G & I). repeat split; auto.
    cbn [prod fold_right]. fold (prod l'). nia.
  - injection H as <- <-. apply andb_false_iff in E. repeat split; auto; try (simpl; lia).
    destruct E as [E|E]; [apply Nat.ltb_ge in E; lia|apply Nat.eqb_neq in E; auto].
Qed.

Lemma divide_out_spec d : 2 <= d -> forall fuel x l y, 1 <= x <= fuel -> divide_out fuel d x = (l, y) ->
  prod l * y = x /\ Forall (fun p => p = d /\ Nat.divide d x) l /\ 1 <= y /\ y mod d <> 0.
Proof.
  intro Hd. induction fuel as [|f IH]; intros x l y B H; [lia|]. cbn [divide_out] in H.
  destruct (x mod d =? 0) eqn:E.
  - apply Nat.eqb_eq in E. pose proof (mod_div x d ltac:(lia) E) as D.
    destruct (divide_out f d (x / d)) as [l' y'] eqn:T. injection H as <- <-.
    apply IH in T; [|nia]. destruct T as (A & F & G & I). repeat split; auto.
    + cbn [prod fold_right]. fold (prod l'). nia.
    + assert (Dv: Nat.divide d x) by (exists (x / d); lia).
      constructor; [auto|]. eapply Forall_impl; [|exact F]. simpl. tauto.
  - injection H as <- <-. apply Nat.eqb_neq in E. repeat split; auto; try (simpl; lia).
Qed.

Lemma odds_spec sq : forall steps d x l y, 3 <= d -> d mod 2 = 1 -> 1 <= x ->
  (forall e, 2 <= e < d -> ~ Nat.divide e x) -> sq < d + 2 * steps ->
  odds steps d sq x = (l, y) ->
  prod l * y = x /\ Forall prime l /\ 1 <= y /\ (forall e, 2 <= e <= sq -> ~ Nat.divide e y).
Proof.
  induction steps as [|st IH]; intros d x l y D3 Do X No L H; cbn [odds] in H.
  - injection H as <- <-. repeat split; auto; try (simpl; lia). intros e He. apply No. lia.
  - destruct (d <=? sq) eqn:E.
    + apply Nat.leb_le in E.
      destruct (divide_out x d x) as [l1 y1] eqn:T1.
      destruct (odds st (d + 2) sq y1) as [l2 y2] eqn:T2. injection H as <- <-.
      apply divide_out_spec in T1; [|lia|lia]. destruct T1 as (A1 & F1 & G1 & I1).
      assert (Dx: forall e, Nat.divide e y1 -> Nat.divide e x).
      { intros e [q ->]. exists (prod l1 * q). lia. }
      apply IH in T2; try lia.
      * destruct T2 as (A2 & F2 & G2 & I2). repeat split; auto.
        -- rewrite prod_app. nia.
        -- apply Forall_app. split; [|exact F2]. apply Forall_forall. intros p Hp.
           rewrite Forall_forall in F1. destruct (F1 p Hp) as [-> Dv]. split; [lia|].
           intros e He. destruct (Nat.eq_dec e 1) as [|N]; [auto|]. right.
           assert (e <> 0). { intros ->. destruct He as [q ?]. lia. }
           pose proof (Nat.divide_pos_le e d ltac:(lia) He).
           destruct (Nat.eq_dec e d); [auto|]. exfalso. apply (No e ltac:(lia)).
           apply (Nat.divide_trans e d x); assumption.
      * rewrite <- Nat.add_mod_idemp_l by lia. rewrite Do. reflexivity.
      * intros e He K. destruct (Nat.eq_dec e d) as [->|N1].
        -- apply I1. apply Nat.mod_divide; [lia|exact K].
        -- destruct (Nat.eq_dec e (d + 1)) as [->|N2].
           ++ apply (No 2 ltac:(lia)). apply Dx. apply (Nat.divide_trans 2 (d + 1) y1); [|exact K].
              apply Nat.mod_divide; [lia|]. rewrite <- Nat.add_mod_idemp_l by lia. rewrite Do. reflexivity.
           ++ apply (No e ltac:(lia)). apply Dx, K.
    + apply Nat.leb_gt in E. injection H as <- <-. repeat split; auto; try (simpl; lia).
      intros e He. apply No. lia.
Qed.

Lemma prime_2 : prime 2.
Proof.
  split; [lia|]. intros d Hd. assert (d <> 0) by (intros ->; destruct Hd; lia).
  pose proof (Nat.divide_pos_le d 2 ltac:(lia) Hd). lia.
Qed.

Lemma no_small_prime sq n y : sq = Nat.sqrt n + 1 -> 2 <= y <= n ->
  (forall e, 2 <= e <= sq -> ~ Nat.divide e y) -> prime y.
Proof.
  intros Es Y No. split; [lia|]. intros d [q E].
  destruct (Nat.eq_dec d 1) as [|N1]; [auto|]. destruct (Nat.eq_dec d y) as [|N2]; [auto|].
  exfalso. assert (d <> 0) by (intros ->; lia). assert (q <> 0) by (intros ->; lia).
  assert (q <> 1) by (intros ->; lia). assert (2 <= d) by lia. assert (2 <= q) by lia.
  pose proof (Nat.sqrt_spec n ltac:(lia)) as Sq. cbv zeta in Sq.
  destruct (Nat.le_gt_cases d sq) as [C|C].
  - apply (No d); [lia|]. exists q. lia.
  - destruct (Nat.le_gt_cases q sq) as [C2|C2].
    + apply (No q); [lia|]. exists d. lia.
    + assert (S (Nat.sqrt n) * S (Nat.sqrt n) <= q * d) by (apply Nat.mul_le_mono; lia). lia.
Qed.

Lemma prime_factors_spec n : 1 <= n ->
  prod (prime_factors n) = n /\ (n = 1 /\ prime_factors n = [1] \/ Forall prime (prime_factors n)) /\
  prime_factors n <> [].
Proof.
  intro P. unfold prime_factors. cbv zeta.
  destruct (twos n n) as [l1 x1] eqn:T1. apply twos_spec in T1; [|lia].
  destruct T1 as (A1 & F1 & G1 & I1).
  destruct (odds (Nat.sqrt n + 1) 3 (Nat.sqrt n + 1) x1) as [l2 x2] eqn:T2.
  apply odds_spec in T2; auto; try lia.
  2:{ intros e He K. assert (e = 2) by lia. subst e. destruct I1 as [->|I1].
      - apply Nat.divide_pos_le in K; lia.
      - apply I1, Nat.mod_divide; [lia|exact K]. }
  destruct T2 as (A2 & F2 & G2 & I2).
  assert (FP: Forall prime (l1 ++ l2)).
  { apply Forall_app. split; [|exact F2]. eapply Forall_impl; [|exact F1]. simpl. intros a ->. apply prime_2. }
  assert (PP: prod (l1 ++ l2) * x2 = n) by (rewrite prod_app; nia).
  assert (Lx: x2 <= n).
  { assert (prod (l1 ++ l2) <> 0) by (intro Z; rewrite Z in PP; simpl in PP; lia). nia. }
  destruct (1 <? x2) eqn:E.
  - apply Nat.ltb_lt in E. cbn [orb]. split; [rewrite prod_app; simpl; lia|]. split.
    + right. apply Forall_app. split; [exact FP|]. constructor; [|constructor].
      apply (no_small_prime (Nat.sqrt n + 1) n); auto; lia.
    + intro K. apply app_eq_nil in K. destruct K; discriminate.
  - apply Nat.ltb_ge in E. assert (x2 = 1) by lia. subst x2. cbn [orb].
    destruct (l1 ++ l2) as [|a l] eqn:EL.
    + simpl in *. split; [lia|]. split; [left; split; [lia|reflexivity]|discriminate].
    + split; [lia|]. split; [right; exact FP|discriminate].
Qed.

(** ** Grouping *)

Lemma cpow_group l : cpow (map fst (group l)) (map snd (group l)) = prod l.
Proof.
  induction l as [|x r IH]; [reflexivity|]. cbn [group]. destruct (group r) as [|[y c] g] eqn:E.
  - simpl in *. rewrite <- IH. lia.
  - destruct (x =? y) eqn:Q.
    + apply Nat.eqb_eq in Q. subst y. cbn [map fst snd cpow] in *. rewrite Nat.pow_succ_r'.
      cbn [prod fold_right]. fold (prod r). rewrite <- IH. lia.
    + cbn [map fst snd cpow] in *. rewrite Nat.pow_1_r.
      cbn [prod fold_right]. fold (prod r). rewrite <- IH. lia.
Qed.

Lemma group_fst (P : nat -> Prop) l : Forall P l -> Forall P (map fst (group l)).
Proof.
  induction 1 as [|x r H F IH]; [constructor|]. cbn [group]. destruct (group r) as [|[y c] g].
  - simpl. auto.
  - destruct (x =? y); simpl in *; [inversion IH; subst|]; constructor; auto.
Qed.

(** ** Counters *)

Definition ok (maxs cur : list nat) : Prop := Forall2 (fun m c => c <= m) maxs cur.

Fixpoint value (maxs cur : list nat) : nat :=
  match maxs, cur with
  | m :: ms, c :: cs => c + S m * value ms cs
  | _, _ => 0
  end.

Lemma value_lt maxs cur : ok maxs cur -> value maxs cur < states maxs.
Proof.
  induction 1 as [|m c ms cs H F IH]; [simpl; lia|].
  cbn [value states fold_right]. fold (states ms). nia.
Qed.

Lemma value_inj maxs a : ok maxs a -> forall b, ok maxs b -> value maxs a = value maxs b -> a = b.
Proof.
  induction 1 as [|m c ms cs H F IH]; intros b Hb E; inversion Hb as [|? c' ? cs' H' F' ]; subst; [reflexivity|].
  cbn [value] in E.
  assert (V: value ms cs = value ms cs').
  { destruct (Nat.lt_trichotomy (value ms cs) (value ms cs')) as [K|[K|K]]; [nia|exact K|nia]. }
  rewrite V in E. f_equal; [lia|]. apply IH; auto.
Qed.

Lemma zeros_ok maxs : ok maxs (zeros maxs).
Proof. induction maxs; simpl; constructor; auto; lia. Qed.

Lemma zeros_value maxs : value maxs (zeros maxs) = 0.
Proof. induction maxs as [|m ms IH]; [reflexivity|]. cbn [zeros map value]. fold (zeros ms). rewrite IH. lia. Qed.

Lemma cnext_spec maxs cur : ok maxs cur ->
  ok maxs (cnext maxs cur) /\
  (S (value maxs cur) < states maxs -> value maxs (cnext maxs cur) = S (value maxs cur)) /\
  (S (value maxs cur) = states maxs -> cnext maxs cur = zeros maxs).
Proof.
  induction 1 as [|m c ms cs H F IH].
  - simpl. repeat split; try lia. constructor.
  - destruct IH as (O & V & Z). cbn [cnext]. pose proof (value_lt ms cs F) as L.
    cbn [value states fold_right]. fold (states ms). destruct (m <? S c) eqn:E.
    + apply Nat.ltb_lt in E. assert (c = m) by lia. subst c. split; [constructor; [lia|exact O]|]. split.
      * intro K. cbn [value]. rewrite V by nia. lia.
      * intro K. cbn [zeros map]. f_equal. apply Z. nia.
    + apply Nat.ltb_ge in E. split; [constructor; [lia|exact F]|]. split.
      * intro K. cbn [value]. lia.
      * intro K. exfalso. nia.
Qed.

Lemma czero_value maxs cur : ok maxs cur -> (czero cur = true <-> value maxs cur = 0).
Proof.
  induction 1 as [|m c ms cs H F IH]; [simpl; tauto|].
  cbn [czero forallb value]. fold (czero cs). rewrite andb_true_iff, IH, Nat.eqb_eq. nia.
Qed.

Lemma visits_sound : forall fuel maxs cur t, ok maxs cur -> In t (visits fuel maxs cur) ->
  ok maxs t /\ czero t = false.
Proof.
  induction fuel as [|f IH]; intros maxs cur t O H; [destruct H|]. cbn [visits] in H. cbv zeta in H.
  destruct (cnext_spec maxs cur O) as (O' & _).
  destruct (czero (cnext maxs cur)) eqn:E; [destruct H|]. destruct H as [<-|H]; [auto|].
  apply (IH _ _ _ O' H).
Qed.

Lemma visits_complete : forall fuel maxs cur t, ok maxs cur -> ok maxs t ->
  value maxs cur < value maxs t -> value maxs t <= value maxs cur + fuel ->
  In t (visits fuel maxs cur).
Proof.
  induction fuel as [|f IH]; intros maxs cur t O T L B; [lia|]. cbn [visits]. cbv zeta.
  destruct (cnext_spec maxs cur O) as (O' & V & _). pose proof (value_lt maxs t T) as LT.
  specialize (V ltac:(lia)).
  destruct (czero (cnext maxs cur)) eqn:E.
  - apply (czero_value maxs) in E; [|exact O']. lia.
  - destruct (Nat.eq_dec (value maxs t) (S (value maxs cur))) as [Q|Q].
    + left. apply (value_inj maxs); auto. lia.
    + right. apply IH; auto; lia.
Qed.

Lemma all_visits_spec maxs t : In t (all_visits maxs) <-> ok maxs t /\ czero t = false.
Proof.
  unfold all_visits. split.
  - apply visits_sound, zeros_ok.
  - intros [O Z]. pose proof (value_lt maxs t O).
    assert (value maxs t <> 0).
    { intro K. apply (czero_value maxs t O) in K. congruence. }
    apply visits_complete; auto; rewrite ?zeros_value; try lia. apply zeros_ok.
Qed.

(** ** Products of powers *)

Lemma cpow_pos fs c : Forall (fun p => 2 <= p) fs -> 1 <= cpow fs c.
Proof.
  intro F. revert c. induction F as [|p fs H F IH]; intros [|e c]; simpl; try lia.
  specialize (IH c). assert (1 <= p ^ e) by (apply Nat.neq_0_lt_0, Nat.pow_nonzero; lia). nia.
Qed.

Lemma cpow_two fs maxs c : Forall (fun p => 2 <= p) fs -> length fs = length maxs -> ok maxs c ->
  czero c = false -> 2 <= cpow fs c.
Proof.
  intros F. revert maxs c. induction F as [|p fs H F IH]; intros maxs c L O Z.
  - destruct maxs; [|discriminate]. inversion O; subst. discriminate.
  - destruct maxs as [|m ms]; [discriminate|]. inversion O as [|? e ? c' He Hc]; subst.
    cbn [cpow]. cbn [czero forallb] in Z. fold (czero c') in Z.
    pose proof (cpow_pos fs c' F) as P1.
    destruct (e =? 0) eqn:E.
    + apply Nat.eqb_eq in E. subst. cbn [andb] in Z. simpl in L.
      specialize (IH ms c' ltac:(lia) Hc Z). simpl. lia.
    + apply Nat.eqb_neq in E. assert (2 <= p ^ e).
      { destruct e; [lia|]. rewrite Nat.pow_succ_r'.
        assert (1 <= p ^ e) by (apply Nat.neq_0_lt_0, Nat.pow_nonzero; lia). nia. }
      nia.
Qed.

Lemma csub_len maxs c : ok maxs c -> length (csub maxs c) = length maxs.
Proof. induction 1; simpl; auto. Qed.

Lemma cpow_csub fs maxs c : length fs = length maxs -> ok maxs c ->
  cpow fs maxs = cpow fs c * cpow fs (csub maxs c).
Proof.
  revert maxs c. induction fs as [|p fs IH]; intros maxs c L O.
  - destruct maxs; [reflexivity|discriminate].
  - destruct maxs as [|m ms]; [discriminate|]. inversion O as [|? e ? c' He Hc]; subst.
    cbn [cpow csub]. rewrite (IH ms c'); auto.
    replace (p ^ m) with (p ^ e * p ^ (m - e)).
    + lia.
    + rewrite <- Nat.pow_add_r. f_equal. lia.
Qed.

Lemma prime_divides_or p a : prime p -> Nat.divide p a \/ Nat.gcd a p = 1.
Proof.
  intros [P2 P]. destruct (P (Nat.gcd a p) (Nat.gcd_divide_r a p)) as [H|H]; [auto|].
  left. rewrite <- H. apply Nat.gcd_divide_l.
Qed.

Lemma divisor_split p : prime p -> forall e a m, Nat.divide a (p ^ e * m) ->
  exists k b, k <= e /\ a = p ^ k * b /\ Nat.divide b m.
Proof.
  intros Pr. pose proof Pr as [P2 _]. induction e as [|e IH]; intros a m D.
  - exists 0, a. simpl in *. rewrite Nat.add_0_r in D. repeat split; auto; lia.
  - destruct (prime_divides_or p a Pr) as [[q E]|G].
    + rewrite Nat.pow_succ_r' in D. subst a. destruct D as [t D].
      assert (D': Nat.divide q (p ^ e * m)).
      { exists t. apply (Nat.mul_cancel_l _ _ p); [lia|]. lia. }
      destruct (IH q m D') as (k & b & K1 & K2 & K3). exists (S k), b.
      repeat split; auto; [lia|]. rewrite K2, Nat.pow_succ_r'. lia.
    + rewrite Nat.pow_succ_r', <- Nat.mul_assoc in D. apply Nat.gauss in D; [|exact G].
      destruct (IH a m D) as (k & b & K1 & K2 & K3). exists k, b. repeat split; auto.
Qed.

Lemma divisor_counts fs : Forall prime fs -> forall maxs a, length fs = length maxs ->
  Nat.divide a (cpow fs maxs) -> exists c, ok maxs c /\ a = cpow fs c.
Proof.
  induction 1 as [|p fs Hp F IH]; intros maxs a L D.
  - destruct maxs; [|discriminate]. simpl in D. exists []. split; [constructor|].
    apply Nat.divide_1_r in D. exact D.
  - destruct maxs as [|m ms]; [discriminate|]. cbn [cpow] in D.
    apply (divisor_split p Hp) in D. destruct D as (k & b & K1 & K2 & K3).
    destruct (IH ms b) as (c & O & E); auto. exists (k :: c). split; [constructor; auto|].
    cbn [cpow]. congruence.
Qed.

Lemma czero_cpow fs c : czero c = true -> cpow fs c = 1.
Proof.
  revert c. induction fs as [|p fs IH]; intros [|e c] Z; try reflexivity.
  cbn [czero forallb] in Z. apply andb_true_iff in Z. destruct Z as [Z1 Z2].
  apply Nat.eqb_eq in Z1. subst. cbn [cpow]. rewrite IH by exact Z2. reflexivity.
Qed.

(** ** The search *)

Lemma candidates_sound n fs counts t : Forall (fun p => 2 <= p) fs -> length fs = length counts ->
  cpow fs counts = n -> In t (candidates n fs counts) ->
  exists a b c, t = (a, b, c) /\ 2 <= a /\ 2 <= b /\ 1 <= c /\ a * b * c = n.
Proof.
  intros F L N H. unfold candidates in H. apply in_flat_map in H. destruct H as (c1 & H1 & H).
  apply in_map_iff in H. destruct H as (c2 & <- & H2).
  apply all_visits_spec in H1. apply all_visits_spec in H2. destruct H1 as [O1 Z1], H2 as [O2 Z2].
  unfold cproduct. rewrite Z1, Z2.
  pose proof (csub_len _ _ O1) as L1.
  assert (A: 2 <= cpow fs c1) by (apply (cpow_two fs counts); auto).
  assert (B: 2 <= cpow fs c2) by (apply (cpow_two fs (csub counts c1)); auto; congruence).
  pose proof (cpow_csub fs counts c1 L O1) as E1.
  pose proof (cpow_csub fs (csub counts c1) c2 ltac:(congruence) O2) as E2.
  set (r := cpow fs (csub (csub counts c1) c2)) in *.
  assert (C: 1 <= r) by (apply cpow_pos, F).
  assert (Q: n / cpow fs c1 / cpow fs c2 = r).
  { rewrite <- N, E1, E2.
    rewrite (Nat.mul_comm (cpow fs c1)), Nat.div_mul by lia.
    rewrite (Nat.mul_comm (cpow fs c2)), Nat.div_mul by lia. reflexivity. }
  rewrite Q. exists (cpow fs c1), (cpow fs c2), r. repeat split; auto.
  rewrite <- N, E1, E2. lia.
Qed.

Lemma candidates_complete n fs counts a b c : Forall prime fs -> length fs = length counts ->
  cpow fs counts = n -> 2 <= a -> 2 <= b -> a * b * c = n -> In (a, b, c) (candidates n fs counts).
Proof.
  intros F L N A B E.
  assert (F2: Forall (fun p => 2 <= p) fs) by (eapply Forall_impl; [|exact F]; intros p [Hp _]; exact Hp).
  assert (D1: Nat.divide a (cpow fs counts)) by (rewrite N; exists (b * c); lia).
  destruct (divisor_counts fs F counts a L D1) as (c1 & O1 & E1).
  pose proof (cpow_csub fs counts c1 L O1) as S1. rewrite <- E1, N in S1.
  assert (S2: cpow fs (csub counts c1) = b * c).
  { apply (Nat.mul_cancel_l _ _ a); [lia|]. lia. }
  assert (D2: Nat.divide b (cpow fs (csub counts c1))) by (rewrite S2; exists c; lia).
  destruct (divisor_counts fs F (csub counts c1) b) as (c2 & O2 & E2); auto.
  { rewrite csub_len; auto. }
  unfold candidates. apply in_flat_map. exists c1. split.
  - apply all_visits_spec. split; [exact O1|]. destruct (czero c1) eqn:Z; [|reflexivity].
    rewrite (czero_cpow fs c1 Z) in E1. lia.
  - apply in_map_iff. exists c2.
    assert (Z1: czero c1 = false).
    { destruct (czero c1) eqn:Z; [|reflexivity]. rewrite (czero_cpow fs c1 Z) in E1. lia. }
    assert (Z2: czero c2 = false).
    { destruct (czero c2) eqn:Z; [|reflexivity]. rewrite (czero_cpow fs c2 Z) in E2. lia. }
    split; [|apply all_visits_spec; auto].
    unfold cproduct. rewrite Z1, Z2, <- E1, <- E2. f_equal.
    rewrite <- E. replace (a * b * c) with (c * b * a) by lia.
    rewrite Nat.div_mul by lia. rewrite Nat.div_mul by lia. reflexivity.
Qed.

Lemma best_min n : forall l acc, (forall u, In u l -> area u < 2 * n + 1) ->
  l <> [] \/ acc <> None ->
  exists t, fold_left (best n) l acc = Some t /\ (In t l \/ acc = Some t) /\
    (forall u, In u l -> area t <= area u) /\ (forall v, acc = Some v -> area t <= area v).
Proof.
  induction l as [|x l IH]; intros acc B H; cbn [fold_left].
  - destruct H as [H|H]; [contradiction|]. destruct acc as [t|]; [|contradiction].
    exists t. split; [reflexivity|]. split; [auto|]. split; [intros u []|].
    intros v E. injection E as <-. lia.
  - destruct (IH (best n acc x)) as (t & E & I1 & I2 & I3).
    + intros u Hu. apply B. simpl. auto.
    + right. unfold best. destruct acc as [v|]; [destruct (area x <? area v); discriminate|].
      pose proof (B x (or_introl eq_refl)) as Bx. apply Nat.ltb_lt in Bx. rewrite Bx. discriminate.
    + exists t. split; [exact E|]. unfold best in I1, I3.
      assert (C: (best n acc x = Some x /\ forall v, acc = Some v -> area x <= area v) \/
                 (best n acc x = acc /\ exists v, acc = Some v /\ area v <= area x)).
      { unfold best. destruct acc as [v|].
        - destruct (area x <? area v) eqn:C; [apply Nat.ltb_lt in C|apply Nat.ltb_ge in C].
          + left. split; [reflexivity|]. intros w Ew. injection Ew as <-. lia.
          + right. split; [reflexivity|]. exists v. auto.
        - pose proof (B x (or_introl eq_refl)) as Bx. apply Nat.ltb_lt in Bx. rewrite Bx.
          left. split; [reflexivity|]. discriminate. }
      fold (best n acc x) in I1, I3. destruct C as [[C D]|(C & v & Ev & D)]; rewrite C in I1, I3.
      * specialize (I3 x eq_refl). split; [|split].
        -- left. destruct I1 as [I1|I1]; [simpl; auto|injection I1 as <-; simpl; auto].
        -- intros u [<-|Hu]; auto.
        -- intros w Ew. specialize (D w Ew). lia.
      * split; [|split].
        -- destruct I1 as [I1|I1]; simpl; auto.
        -- intros u [<-|Hu]; auto. specialize (I3 v Ev). lia.
        -- exact I3.
Qed.

Lemma area_bound a b c : 2 <= a -> 2 <= b -> 1 <= c -> area (a, b, c) < 2 * (a * b * c) + 1.
Proof.
  intros A B C. unfold area. destruct c as [|[|c]]; [lia|nia|].
  assert (a * b * 2 <= a * b * S (S c)) by nia.
  assert (2 * (b * S (S c)) <= a * (b * S (S c))) by nia.
  assert (2 * (a * S (S c)) <= b * (a * S (S c))) by nia. nia.
Qed.
