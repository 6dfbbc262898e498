(** C25: ids of collective messages. *)
From Coq Require Import List NArith ZArith Lia Bool.
Import ListNotations.
Open Scope Z_scope.

(** Action::type_t, sumi/collective_actor.h:76. *)
Inductive aty := TSend | TRecv | TShuffle | TUnroll | TResolve | TJoin.
Definition aty_code (t : aty) : Z :=
  match t with TSend => 0 | TRecv => 1 | TShuffle => 2 | TUnroll => 3 | TResolve => 4 | TJoin => 5 end.

Definition u32 (x : Z) : Z := x mod 2 ^ 32.
(** Conversion of an unsigned value to int. *)
Definition i32 (x : Z) : Z := let y := x mod 2 ^ 32 in if y <? 2 ^ 31 then y else y - 2 ^ 32.

(** Action::messageId, sumi/collective_actor.h:104-110.  p*max_round is computed
    in uint32_t (max_round is unsigned), and so is everything added to it; r*num_enums
    is an int product converted to unsigned. *)
Definition message_id (ty : aty) (r p : Z) : Z :=
  u32 (u32 (u32 (u32 p * 500) * 6) + u32 (r * 6) + aty_code ty).

(** Action::details, sumi/collective_actor.h:112-122. *)
Definition details (id : Z) : Z * Z * Z :=
  let p := i32 (id / 500 / 6) in
  let rem := u32 (id - u32 (u32 (u32 p * 500) * 6)) in
  let r := i32 (rem / 6) in
  let rem2 := u32 (rem - u32 (r * 6)) in
  (rem2, r, p).

Lemma u32_small : forall x, 0 <= x < 2 ^ 32 -> u32 x = x.
Proof. intros x H. apply Z.mod_small. exact H. Qed.
Lemma i32_small : forall x, 0 <= x < 2 ^ 31 -> i32 x = x.
Proof.
  intros x H. unfold i32. rewrite Z.mod_small by lia.
  destruct (Z.ltb_spec x (2 ^ 31)); [reflexivity|lia].
Qed.

(** Rounds below max_round, partners below 2^32/3000. *)
Definition in_range (r p : Z) : Prop := 0 <= r < 500 /\ 0 <= p < 1431655.

Lemma mid_val : forall ty r p, in_range r p -> message_id ty r p = p * 3000 + r * 6 + aty_code ty.
Proof.
  intros ty r p (Hr & Hp). unfold message_id, u32.
  rewrite (Z.mod_small p) by lia. rewrite (Z.mod_small (p * 500)) by lia.
  rewrite (Z.mod_small (p * 500 * 6)) by lia. rewrite (Z.mod_small (r * 6)) by lia.
  rewrite Z.mod_small; destruct ty; cbn [aty_code]; lia.
Qed.

(** The id determines type, round and partner, and the decoder recovers them. *)
Theorem message_id_decodes : forall ty r p, in_range r p -> details (message_id ty r p) = (aty_code ty, r, p).
Proof.
  intros ty r p H. rewrite mid_val by exact H. destruct H as (Hr & Hp). unfold details.
  assert (Hc : 0 <= aty_code ty < 6) by (destruct ty; cbn; lia).
  assert (E1 : (p * 3000 + r * 6 + aty_code ty) / 500 / 6 = p).
  { rewrite Z.div_div by lia. symmetry. apply (Z.div_unique _ _ p (r * 6 + aty_code ty)); lia. }
  assert (E2 : (r * 6 + aty_code ty) / 6 = r) by (symmetry; apply (Z.div_unique _ _ r (aty_code ty)); lia).
  cbv zeta. rewrite E1, (i32_small p), (u32_small p), (u32_small (p * 500)), (u32_small (p * 500 * 6)) by lia.
  replace (p * 3000 + r * 6 + aty_code ty - p * 500 * 6) with (r * 6 + aty_code ty) by lia.
  rewrite (u32_small (r * 6 + aty_code ty)), E2, (i32_small r), (u32_small (r * 6)) by lia.
  replace (r * 6 + aty_code ty - r * 6) with (aty_code ty) by lia.
  rewrite u32_small by lia. reflexivity.
Qed.
Print Assumptions message_id_decodes.

Theorem message_id_distinct : forall ty r p ty' r' p', in_range r p -> in_range r' p' ->
  message_id ty r p = message_id ty' r' p' -> ty = ty' /\ r = r' /\ p = p'.
Proof.
  intros ty r p ty' r' p' H H' E. pose proof (message_id_decodes ty r p H) as D.
  rewrite E, (message_id_decodes ty' r' p' H') in D. inversion D.
  split; [|auto]. destruct ty, ty'; cbn in *; congruence || reflexivity.
Qed.
Print Assumptions message_id_distinct.

(** Without the limit on rounds the ids are not distinct: round 500 with
    partner 0 has the id of round 0 with partner 1.  A ring allgather on more
    than 500 ranks has rounds from 500 on (sumi/allgather.cc:232-249) but only
    one partner, so it is a clash with another partner that is needed. *)
Theorem message_id_distinct_refuted :
  exists ty r p ty' r' p', 0 <= r /\ 0 <= p < 2 ^ 31 /\ 0 <= r' /\ 0 <= p' < 2 ^ 31 /\
    (ty, r, p) <> (ty', r', p') /\ message_id ty r p = message_id ty' r' p'.
Proof.
  exists TRecv, 500, 0, TRecv, 0, 1. repeat split; try lia; discriminate.
Qed.
Print Assumptions message_id_distinct_refuted.

(** Ids of sends and receives never coincide, in any range of rounds and
    partners: the type is the residue modulo 6 only without wrap-around, but the
    parity survives it. *)
Theorem message_id_parity : forall r p r' p', message_id TSend r p <> message_id TRecv r' p'.
Proof.
  assert (Hpar : forall ty r p, message_id ty r p mod 2 = aty_code ty mod 2).
  { intros ty r p.
    assert (Hm : forall x, u32 x mod 2 = x mod 2).
    { intros x. unfold u32. rewrite <- Znumtheory.Zmod_div_mod; [reflexivity|lia|lia|].
      exists (2 ^ 31). reflexivity. }
    unfold message_id. rewrite Hm. generalize (u32 p * 500). intros a.
    rewrite (Z.add_mod (u32 (u32 a * 6) + u32 (r * 6))), (Z.add_mod (u32 (u32 a * 6))), !Hm by lia.
    rewrite (Z.mul_mod (u32 a) 6), (Z.mul_mod r 6) by lia. change (6 mod 2) with 0.
    rewrite !Z.mul_0_r. destruct ty; reflexivity. }
  intros r p r' p' E. pose proof (Hpar TSend r p) as H1. rewrite E, Hpar in H1. discriminate.
Qed.
Print Assumptions message_id_parity.

Example message_id_example : message_id TRecv 7 1000 = 3000043 /\ details 3000043 = (1, 7, 1000).
Proof. split; reflexivity. Qed.
