(** Properties of automatic grids: C50, C72, C73. *)
From Coq Require Import List Arith Bool Lia.
From Verif Require Import CgModel CgProof.
Import ListNotations.

Lemma search n fs : 1 <= n -> Forall prime fs -> prod fs = n -> 4 <= length fs ->
  exists t, fold_left (best n) (candidates n (map fst (group fs)) (map snd (group fs))) None = Some t /\
    In t (candidates n (map fst (group fs)) (map snd (group fs))) /\
    (forall u, In u (candidates n (map fst (group fs)) (map snd (group fs))) -> area t <= area u).
Proof.
  intros N F P L.
  set (bs := map fst (group fs)). set (cs := map snd (group fs)).
  assert (Len: length bs = length cs) by (unfold bs, cs; rewrite !map_length; reflexivity).
  assert (Fp: Forall prime bs) by (apply group_fst, F).
  assert (F2: Forall (fun p => 2 <= p) bs) by (eapply Forall_impl; [|exact Fp]; intros p [Hp _]; exact Hp).
  assert (Pw: cpow bs cs = n) by (unfold bs, cs; rewrite cpow_group; exact P).
  destruct (best_min n (candidates n bs cs) None) as (t & E & I1 & I2 & _).
  - intros u Hu. destruct (candidates_sound n bs cs u F2 Len Pw Hu) as (a & b & c & -> & A & B & C & M).
    rewrite <- M. apply area_bound; auto.
  - left. destruct fs as [|p [|q fs]]; [simpl in L; lia|simpl in L; lia|].
    inversion F as [|? ? [Hp _] F']; subst. inversion F' as [|? ? [Hq _] _]; subst.
    assert (K: In (p, q, prod fs) (candidates (prod (p :: q :: fs)) bs cs)).
    { apply candidates_complete; auto. simpl. lia. }
    intro Z. rewrite Z in K. destruct K.
  - exists t. split; [exact E|]. split; [|exact I2]. destruct I1 as [I1|I1]; [exact I1|discriminate].
Qed.

Lemma cases n : 1 <= n -> exists t, gen_cart_grid n = Some t /\
  ((exists p, prime_factors n = [p] /\ t = (n, 1, 1)) \/
   (exists p q, prime_factors n = [p; q] /\ t = (p, q, 1)) \/
   (exists p q r, prime_factors n = [p; q; r] /\ t = (p, q, r)) \/
   (4 <= length (prime_factors n) /\ Forall prime (prime_factors n) /\
    let g := group (prime_factors n) in
    In t (candidates n (map fst g) (map snd g)) /\
    forall u, In u (candidates n (map fst g) (map snd g)) -> area t <= area u)).
Proof.
  intro N. destruct (prime_factors_spec n N) as (P & F & NE). unfold gen_cart_grid.
  destruct (prime_factors n) as [|p l] eqn:E; [contradiction|].
  destruct l as [|q l]; [exists (n, 1, 1); split; [reflexivity|left; eauto]|].
  destruct l as [|r l]; [exists (p, q, 1); split; [reflexivity|right; left; eauto]|].
  destruct l as [|s l]; [exists (p, q, r); split; [reflexivity|right; right; left; eauto 6]|].
  destruct F as [[_ F]|F]; [discriminate|].
  assert (L: 4 <= length (p :: q :: r :: s :: l)) by (simpl; lia).
  destruct (search n _ N F P L) as (t & S & I & M).
  exists t. split.
  - destruct (n =? 1) eqn:E1; [|exact S]. apply Nat.eqb_eq in E1. exfalso.
    inversion F as [|? ? [Hp _] F1]. rewrite E1 in P.
    change (p * prod (q :: r :: s :: l) = 1) in P. apply Nat.eq_mul_1 in P. lia.
  - right. right. right. split; [exact L|]. split; [exact F|]. split; [exact I|exact M].
Qed.

(** ** C50 *)

(** The grid has exactly n cells (in particular it is always set). *)
Theorem C50_grid_has_n_cells :
  forall n, 1 <= n -> exists x y z, gen_cart_grid n = Some (x, y, z) /\ x * y * z = n.
Proof.
  intros n N. destruct (cases n N) as (t & E & C).
  destruct (prime_factors_spec n N) as (P & F & _).
  destruct C as [(p & Q & ->)|[(p & q & Q & ->)|[(p & q & r & Q & ->)|(L & Fp & I & _)]]].
  - exists n, 1, 1. split; [exact E|lia].
  - exists p, q, 1. split; [exact E|]. rewrite Q in P. simpl in P. lia.
  - exists p, q, r. split; [exact E|]. rewrite Q in P. simpl in P. lia.
  - destruct (candidates_sound n (map fst (group (prime_factors n))) (map snd (group (prime_factors n))) t)
      as (a & b & c & -> & A & B & C & M); auto.
    + apply group_fst. eapply Forall_impl; [|exact Fp]. intros p [Hp _]; exact Hp.
    + rewrite !map_length. reflexivity.
    + rewrite cpow_group. exact P.
    + exists a, b, c. split; [exact E|exact M].
Qed.
Print Assumptions C50_grid_has_n_cells.

(** The factor arrays (33 entries, one of them the terminator) never overflow. *)
Lemma prod_pow l : Forall (fun p => 2 <= p) l -> 2 ^ length l <= prod l.
Proof.
  induction 1 as [|p l H F IH]; [simpl; lia|].
  cbn [length prod fold_right]. fold (prod l). rewrite Nat.pow_succ_r'. nia.
Qed.

Theorem C50_factor_array_bound :
  forall n, 1 <= n < 2 ^ 31 -> length (prime_factors n) < 33.
Proof.
  intros n [N B]. destruct (prime_factors_spec n N) as (P & F & _).
  destruct F as [[_ F]|F]; [rewrite F; simpl; lia|].
  destruct (Nat.lt_ge_cases (length (prime_factors n)) 33) as [C|C]; [exact C|exfalso].
  assert (K: 2 ^ length (prime_factors n) <= n).
  { rewrite <- P at 2. apply prod_pow. eapply Forall_impl; [|exact F]. intros p [Hp _]; exact Hp. }
  assert (2 ^ 31 <= 2 ^ length (prime_factors n)) by (apply Nat.pow_le_mono_r; lia). lia.
Qed.
Print Assumptions C50_factor_array_bound.

Example C50_run : map gen_cart_grid [1; 7; 15; 30; 48; 72; 97] =
  [Some (1, 1, 1); Some (7, 1, 1); Some (3, 5, 1); Some (2, 3, 5); Some (4, 4, 3); Some (4, 3, 6); Some (97, 1, 1)].
Proof. vm_compute. reflexivity. Qed.

(** ** C72: the grid has the smallest surface *)

Lemma area_perm1 a b c : area (a, b, c) = area (b, a, c).
Proof. unfold area. lia. Qed.
Lemma area_perm2 a b c : area (a, b, c) = area (a, c, b).
Proof. unfold area. lia. Qed.

(** A divisor triple of a product of up to three primes. *)
Lemma prime_pos p : prime p -> 2 <= p.
Proof. intros [H _]. exact H. Qed.

Lemma split_prime p m a b c : prime p -> a * b * c = p * m ->
  (exists a', a = p * a' /\ a' * b * c = m) \/ (exists b', b = p * b' /\ a * b' * c = m) \/
  (exists c', c = p * c' /\ a * b * c' = m).
Proof.
  intros Pr E. pose proof (prime_pos p Pr) as P2.
  assert (D: Nat.divide p (a * (b * c))) by (exists m; lia).
  destruct (prime_divides_or p a Pr) as [[q Q]|G].
  - left. exists q. split; [lia|]. subst a. apply (Nat.mul_cancel_l _ _ p); [lia|]. lia.
  - apply Nat.gauss in D; [|rewrite Nat.gcd_comm; exact G].
    destruct (prime_divides_or p b Pr) as [[q Q]|G2].
    + right. left. exists q. split; [lia|]. subst b. apply (Nat.mul_cancel_l _ _ p); [lia|]. lia.
    + apply Nat.gauss in D; [|rewrite Nat.gcd_comm; exact G2]. destruct D as [q Q].
      right. right. exists q. split; [lia|]. subst c. apply (Nat.mul_cancel_l _ _ p); [lia|]. lia.
Qed.

Lemma one3 a b c : a * b * c = 1 -> a = 1 /\ b = 1 /\ c = 1.
Proof. intro H. assert (a * b = 1 /\ c = 1) as [H1 H2] by (apply Nat.eq_mul_1; exact H). apply Nat.eq_mul_1 in H1. tauto. Qed.

Lemma min1 p a b c : prime p -> a * b * c = p -> area (p, 1, 1) <= area (a, b, c).
Proof.
  intros Pr E. replace p with (p * 1) in E by lia.
  apply (split_prime p 1 a b c Pr) in E.
  destruct E as [(x & -> & E)|[(x & -> & E)|(x & -> & E)]]; apply one3 in E; destruct E as (-> & -> & ->);
    unfold area; lia.
Qed.

Lemma min2 p q a b c : prime p -> prime q -> a * b * c = p * q -> area (p, q, 1) <= area (a, b, c).
Proof.
  intros Pp Pq E. pose proof (prime_pos p Pp). pose proof (prime_pos q Pq).
  apply (split_prime p q a b c Pp) in E.
  destruct E as [(x & -> & E)|[(x & -> & E)|(x & -> & E)]];
    replace q with (q * 1) in E by lia; apply (split_prime q 1 _ _ _ Pq) in E;
    destruct E as [(y & -> & E)|[(y & -> & E)|(y & -> & E)]]; apply one3 in E; destruct E as (-> & -> & ->);
    unfold area; nia.
Qed.

Lemma min3 p q r a b c : prime p -> prime q -> prime r -> a * b * c = p * (q * r) ->
  area (p, q, r) <= area (a, b, c).
Proof.
  intros Pp Pq Pr E. pose proof (prime_pos p Pp). pose proof (prime_pos q Pq). pose proof (prime_pos r Pr).
  apply (split_prime p (q * r) a b c Pp) in E.
  assert (X1: q * r + p * r <= p * q * r) by nia.
  assert (X2: p * q + p * r <= p * q * r) by nia.
  assert (X3: p * q + q * r <= p * q * r) by nia.
  destruct E as [(x & -> & E)|[(x & -> & E)|(x & -> & E)]];
    apply (split_prime q r _ _ _ Pq) in E;
    destruct E as [(y & -> & E)|[(y & -> & E)|(y & -> & E)]];
    replace r with (r * 1) in E by lia; apply (split_prime r 1 _ _ _ Pr) in E;
    destruct E as [(z & -> & E)|[(z & -> & E)|(z & -> & E)]]; apply one3 in E; destruct E as (-> & -> & ->);
    unfold area; nia.
Qed.

(** Of all boxes with n cells the grid has the least surface. *)
Theorem C72_grid_minimal_surface :
  forall n a b c, 1 <= n -> a * b * c = n ->
  exists x y z, gen_cart_grid n = Some (x, y, z) /\
    x * y + y * z + x * z <= a * b + b * c + a * c.
Proof.
  intros n a b c N E. destruct (cases n N) as ([[x y] z] & G & C).
  exists x, y, z. split; [exact G|].
  change (x * y + y * z + x * z) with (area (x, y, z)). change (a * b + b * c + a * c) with (area (a, b, c)).
  destruct (prime_factors_spec n N) as (P & F & _).
  destruct C as [(p & Q & T)|[(p & q & Q & T)|[(p & q & r & Q & T)|(L & Fp & I & M)]]].
  - rewrite T. destruct F as [[-> _]|F].
    + apply one3 in E. destruct E as (-> & -> & ->). lia.
    + rewrite Q in F, P. inversion F; subst. simpl in P. rewrite Nat.mul_1_r in P. subst p.
      apply min1; auto.
  - rewrite T. destruct F as [[_ F]|F]; [rewrite Q in F; discriminate|].
    rewrite Q in F, P. inversion F as [|? ? Fp F1]; subst. inversion F1 as [|? ? Fq F2]; subst.
    simpl in P. apply min2; auto. lia.
  - rewrite T. destruct F as [[_ F]|F]; [rewrite Q in F; discriminate|].
    rewrite Q in F, P. inversion F as [|? ? Fp F1]; subst. inversion F1 as [|? ? Fq F2]; subst.
    inversion F2 as [|? ? Fr F3]; subst. simpl in P. apply min3; auto. lia.
  - clear F. cbv zeta in I, M. set (bs := map fst (group (prime_factors n))) in *.
    set (cs := map snd (group (prime_factors n))) in *.
    assert (Len: length bs = length cs) by (unfold bs, cs; rewrite !map_length; reflexivity).
    assert (Fb: Forall prime bs) by (apply group_fst, Fp).
    assert (F2: Forall (fun p => 2 <= p) bs) by (eapply Forall_impl; [|exact Fb]; intros p [Hp _]; exact Hp).
    assert (Pw: cpow bs cs = n) by (unfold bs, cs; rewrite cpow_group; exact P).
    assert (Cm: forall u v w, 2 <= u -> 2 <= v -> u * v * w = n -> area (x, y, z) <= area (u, v, w)).
    { intros u v w U V W. apply M. apply candidates_complete; auto. }
    assert (a <> 0) by (intros ->; simpl in E; lia).
    assert (b <> 0) by (intros ->; rewrite Nat.mul_0_r in E; simpl in E; lia).
    assert (c <> 0) by (intros ->; rewrite Nat.mul_0_r in E; lia).
    assert (B: area (x, y, z) < 2 * n + 1).
    { destruct (candidates_sound n bs cs _ F2 Len Pw I) as (u & v & w & T & A & B & C & M').
      injection T as -> -> ->. rewrite <- M'. apply area_bound; auto. }
    destruct (Nat.eq_dec a 1) as [->|Na].
    + destruct (Nat.eq_dec b 1) as [->|Nb]; [unfold area at 2; lia|].
      destruct (Nat.eq_dec c 1) as [->|Nc]; [unfold area at 2; lia|].
      rewrite (area_perm1 1 b c), (area_perm2 b 1 c). apply Cm; lia.
    + destruct (Nat.eq_dec b 1) as [->|Nb].
      * destruct (Nat.eq_dec c 1) as [->|Nc]; [unfold area at 2; lia|].
        rewrite (area_perm2 a 1 c). apply Cm; lia.
      * apply Cm; lia.
Qed.
Print Assumptions C72_grid_minimal_surface.

Example C72_run : gen_cart_grid 64 = Some (4, 4, 4) /\ gen_cart_grid 1024 = Some (8, 8, 16).
Proof. split; vm_compute; reflexivity. Qed.

(** ** C73: automatic Cartesian allocation *)

(** Asked for four nodes, the allocator adds only two different ones: the inner
    loops overwrite the wrong coordinate. *)
Theorem C73_auto_allocation_refuted :
  exists n l, auto_coords n = Some l /\ length l = n /\
    length (nodup (list_eq_dec Nat.eq_dec) l) < n.
Proof.
  exists 4, [[0;0;0]; [0;1;0]; [0;1;0]; [0;1;0]].
  split; [vm_compute; reflexivity|]. split; [reflexivity|]. vm_compute. repeat constructor.
Qed.
Print Assumptions C73_auto_allocation_refuted.
