(** Property theorems about timestamps: C06, C07, C08, C58. *)
From Coq Require Import NArith Bool.
From Verif Require Import TimeModel TimeSpec TimeProof.
Local Open Scope N_scope.

(** C06: as long as the tick sum stays below 2^64. *)
Theorem C06_add_moves_forward : forall t a, wf t -> ticks t + a < two64 ->
  ts_ge (ts_add t a) t = true /\ instant (ts_add t a) = instant t + a /\ wf (ts_add t a).
Proof. exact add_mono. Qed.
Print Assumptions C06_add_moves_forward.

Theorem C06_add_assoc : forall t a b, wf t -> ts_add (ts_add t a) b = ts_add t (add64 a b).
Proof. exact add_assoc. Qed.
Print Assumptions C06_add_assoc.

(** Subtraction undoes addition, except on the zero tick (see the refutation). *)
Theorem C06_add_sub_partial : forall t a, wf t -> a < two64 -> ticks t + a < two64 -> 0 < ticks t ->
  ts_sub (ts_add t a) a = t.
Proof. exact add_sub. Qed.
Print Assumptions C06_add_sub_partial.

Theorem C06_sub_exact_partial : forall t d, wf t -> d < ticks t -> instant (ts_sub t d) + d = instant t.
Proof. exact sub_val. Qed.
Print Assumptions C06_sub_exact_partial.

Theorem C06_difference : forall a b d, wf a -> wf b -> ts_diff a b = Some d -> instant b <= instant a ->
  instant a = instant b + d.
Proof. exact diff_val. Qed.
Print Assumptions C06_difference.

Theorem C06_add_timestamps : forall a b, wf a -> wf b -> ticks a + ticks b < two64 ->
  epochs a + epochs b < two64 -> instant (ts_add_ts a b) = instant a + instant b.
Proof. exact add_ts_val. Qed.
Print Assumptions C06_add_timestamps.

Example C06_example : wf (Ts 3 1000) /\ 1000 + 77 < two64 /\ ts_sub (ts_add (Ts 3 1000) 77) 77 = Ts 3 1000.
Proof. unfold wf. vm_compute. auto. Qed.

(** (0 + 5) - 5 is not 0 but the end of the previous epoch; and adding past 2^64 ticks goes
    back in time instead of carrying into the epoch counter. *)
Theorem C06_roundtrip_refuted : exists t a, wf t /\ a < two64 /\ ticks t + a < two64 /\
  ts_sub (ts_add t a) a = Ts 18446744073709551615 18446744073709551610 /\ t = Ts 0 0.
Proof. exists (Ts 0 0), 5. unfold wf. vm_compute. auto 10. Qed.
Print Assumptions C06_roundtrip_refuted.

Theorem C06_borrow_refuted : exists t a, wf t /\ a < two64 /\ 0 < epochs t /\
  instant (ts_sub t a) + a <> instant t.
Proof. exists (Ts 1 3), 5. unfold wf. vm_compute. repeat split; auto; discriminate. Qed.
Print Assumptions C06_borrow_refuted.

Theorem C06_carry_refuted : exists t a, wf t /\ 0 < a < two64 /\ ts_lt (ts_add t a) t = true.
Proof. exists (Ts 0 18446744073709551615), 1. unfold wf. vm_compute. auto 10. Qed.
Print Assumptions C06_carry_refuted.

(** C07: five of the six operators agree with the order of instants ... *)
Theorem C07_order_partial : forall a b, wf a -> wf b ->
  (ts_lt a b = true <-> instant a < instant b) /\
  (ts_gt a b = true <-> instant b < instant a) /\
  (ts_ge a b = true <-> instant b <= instant a) /\
  (ts_eq a b = true <-> instant a = instant b) /\
  (ts_ne a b = true <-> instant a <> instant b).
Proof. exact cmp_sound. Qed.
Print Assumptions C07_order_partial.

(** ... and <= does within one epoch, ... *)
Theorem C07_le_same_epoch_partial : forall a b, wf a -> wf b -> epochs a = epochs b ->
  (ts_le a b = true <-> instant a <= instant b).
Proof. exact le_same_epoch. Qed.
Print Assumptions C07_le_same_epoch_partial.

(** ... but not across epochs: both a <= b and a > b hold. *)
Theorem C07_le_refuted : exists a b, wf a /\ wf b /\ ts_le a b = true /\ ts_gt a b = true.
Proof. exists (Ts 1 0), (Ts 0 1). unfold wf. vm_compute. auto 10. Qed.
Print Assumptions C07_le_refuted.

Example C07_example : wf (Ts 2 5) /\ wf (Ts 2 9) /\ ts_lt (Ts 2 5) (Ts 2 9) = true /\ ts_le (Ts 2 9) (Ts 2 5) = false.
Proof. unfold wf. vm_compute. auto 10. Qed.

(** C08: for durations below 2^32 ticks. *)
Theorem C08_divide_up_partial : forall num denom q, num < two32 -> denom < two32 ->
  divide_up num denom = Some q ->
  num <= q * denom /\ forall k, num <= k * denom -> q <= k.
Proof. exact divide_up_val. Qed.
Print Assumptions C08_divide_up_partial.

Example C08_example : divide_up 1000 300 = Some 4 /\ divide_up 900 300 = Some 3.
Proof. vm_compute. auto. Qed.

(** Longer durations are truncated to 32 bits: wrong result, or a division by zero for a
    nonzero interval. *)
Theorem C08_truncation_refuted :
  (exists num denom q, num < two64 /\ 0 < denom /\ divide_up num denom = Some q /\ q * denom < num) /\
  (exists num denom, num < two64 /\ 0 < denom < two64 /\ divide_up num denom = None).
Proof.
  split; [exists 4294967297, 2, 1|exists 1, 4294967296]; vm_compute; auto 10.
Qed.
Print Assumptions C08_truncation_refuted.

(** C58: unit constants are exact when the tick spacing divides a femtosecond ... *)
Theorem C58_units_exact_partial : forall s, 0 < s -> 1000 mod s = 0 ->
  one_s (init_stamps s) * s = 1000000000000000000.
Proof. exact init_exact. Qed.
Print Assumptions C58_units_exact_partial.

Example C58_example : one_s (init_stamps 100) * 100 = 1000000000000000000.
Proof. reflexivity. Qed.

(** ... and otherwise a second is not a second. *)
Theorem C58_units_refuted : exists s, 0 < s < 1000 /\ one_s (init_stamps s) * s = 900000000000000000.
Proof. exists 300. vm_compute. auto. Qed.
Print Assumptions C58_units_refuted.
