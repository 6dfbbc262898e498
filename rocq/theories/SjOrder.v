(* Order of injection: first in first out, and round robin *)
From Coq Require Import List ZArith Bool Arith Lia Permutation.
From Verif Require Import PtModel SjModel SjSpec SjProof.
Import ListNotations.
Local Open Scope Z_scope.

(* ---------- the messages in the queue are the unfinished ones ---------- *)

Lemma unfinished_in : forall h m, In m (unfinished h) <->
  In m (sent h) /\ existsb np_tail (of_msg m (injected h)) = false.
Proof.
  intros h m. unfold unfinished. rewrite filter_In. rewrite negb_true_iff. reflexivity.
Qed.
Lemma sent_nodup : forall h, distinct h -> NoDup (sent h).
Proof. intros h D. exact (NoDup_map_inv n_id (sent h) D). Qed.
Lemma unfinished_nodup : forall h, distinct h -> NoDup (unfinished h).
Proof. intros h D. apply NoDup_filter. apply sent_nodup. exact D. Qed.

Lemma unfinished_queue : forall c buf0 h s, inv c buf0 h s -> distinct h ->
  Permutation (unfinished h) (map snd (ni_q s)).
Proof.
  intros c buf0 h s V D. apply NoDup_Permutation.
  - apply unfinished_nodup. exact D.
  - apply (NoDup_map_inv n_id). rewrite map_map. exact (i_ids _ _ _ _ V).
  - intro m. rewrite unfinished_in. split.
    + intros [S T]. destruct (i_sent _ _ _ _ V m S) as [[off I]|E].
      * apply (in_map snd _ (off, m) I).
      * rewrite tail_shape, E, cut_tail in T. discriminate.
    + intro I. apply in_map_iff in I as [[off x] [E I]]. cbn in E. subst x.
      destruct (i_queue _ _ _ _ V off m I) as [S [k [K [_ E]]]]. split; [exact S|].
      rewrite tail_shape, E. apply cut_no_tail. exact K.
Qed.

(* ---------- first in, first out ---------- *)

Lemma fifo_inv : forall c buf0 next0 h s, 0 < c_mtu c -> nrun (list_q false) c [] buf0 next0 h s ->
  Forall (fun m => 0 <= n_len m) (sent h) /\
  exists done k, sent h = done ++ map snd (ni_q s) /\
    map tag (injected h) = flat_map (tagged (c_mtu c)) done ++
      firstn k (match ni_q s with [] => [] | (_, m) :: _ => tagged (c_mtu c) m end) /\
    match ni_q s with
    | [] => k = 0%nat
    | (off, m) :: r => off = Z.of_nat k * c_mtu c /\ (k < pieces (c_mtu c) (n_len m))%nat /\ Forall (fun e => fst e = 0) r
    end.
Proof.
  intros c buf0 next0 h s MTU R. induction R as [|h s m R IH NC L|h s n R IH NC N|h s s' R IH NC T|h s p s' R IH NC T].
  - split; [constructor|]. exists [], 0%nat. repeat split.
  - destruct IH as [LN (done & k & S & I & Q)]. split.
    { cbn [sent]. apply Forall_app. split; [exact LN|constructor; [exact L|constructor]]. }
    exists done, k. cbn [ni_q sent injected q_insert list_q]. rewrite S, map_app, app_assoc. split; [reflexivity|].
    destruct (ni_q s) as [|[off x] r].
    + subst k. cbn [app]. split; [exact I|]. split; [reflexivity|]. split; [apply pieces_pos|constructor].
    + cbn [app]. split; [exact I|]. destruct Q as [Q1 [Q2 Q3]]. split; [exact Q1|]. split; [exact Q2|].
      apply Forall_app. split; [exact Q3|constructor; [reflexivity|constructor]].
  - exact IH.
  - apply turn_stop in T as [-> _]. exact IH.
  - destruct IH as [LN (done & k & S & I & Q)]. split; [exact LN|].
    apply turn_packet in T as (off & m & r & QE & W). cbv zeta in W. destruct W as (SZ & PI & PS & _ & _ & _ & ->).
    rewrite QE in *. destruct Q as [KO [KL Q3]].
    assert (ML : 0 <= n_len m).
    { rewrite S in LN. rewrite Forall_forall in LN. apply LN. apply in_or_app. right. left. reflexivity. }
    destruct (piece_left (c_mtu c) (n_len m) k MTU ML KL) as [PL PT]. rewrite <- KO in PL, PT.
    set (left := n_len m - off) in *. set (size := Z.min left (c_mtu c)) in *.
    assert (SP : tag p = (n_id m, piece (c_mtu c) m k)).
    { unfold tag. rewrite PI, PS. unfold piece. rewrite <- KO. fold left. rewrite <- PT. rewrite Z.min_comm. reflexivity. }
    assert (STEP : firstn (Datatypes.S k) (tagged (c_mtu c) m) = firstn k (tagged (c_mtu c) m) ++ [tag p]).
    { unfold tagged. rewrite !firstn_map, cut_snoc by exact KL. rewrite map_app, SP. reflexivity. }
    rewrite Z.eqb_sym in PT. rewrite PT. cbn [ni_q sent injected]. rewrite map_app, I. cbn [map].
    rewrite <- app_assoc, <- STEP.
    destruct (Nat.eqb_spec (Datatypes.S k) (pieces (c_mtu c) (n_len m))) as [LAST|MORE].
    + exists (done ++ [m]), 0%nat. rewrite S. cbn [map snd]. rewrite <- app_assoc. split; [reflexivity|]. split.
      * rewrite flat_map_app. cbn [flat_map]. rewrite !app_nil_r. f_equal.
        unfold tagged. rewrite <- (firstn_all (cut (c_mtu c) m)) at 2. rewrite cut_length, <- LAST, <- firstn_map. reflexivity.
      * destruct r as [|[o x] r']; [reflexivity|]. inversion Q3; subst. cbn in H1. split; [exact H1|].
        split; [apply pieces_pos|assumption].
    + assert (size = c_mtu c) as SE by (apply Z.eqb_neq in PT; unfold size in *; lia).
      exists done, (Datatypes.S k). split; [exact S|]. split; [reflexivity|]. split; [lia|]. split; [lia|exact Q3].
Qed.

(* ---------- round robin ---------- *)

(* Between two packets of a message: the messages that were unfinished with it, in turn *)
Lemma rr_between : forall c buf0 next0 h s, 0 < c_mtu c -> 0 <= buf0 ->
  nrun (list_q true) c [] buf0 next0 h s -> distinct h ->
  forall mid p1 old, h = mid ++ Injected p1 :: old ->
    (forall p, In p (injected mid) -> np_id p <> np_id p1) ->
    ~ In (np_id p1) (ids (ni_q s)) \/
    exists l0 l1 l2 o m, Permutation (map n_id (unfinished old)) (np_id p1 :: l0) /\
      ni_q s = l1 ++ (o, m) :: l2 /\ n_id m = np_id p1 /\ l0 = map np_id (injected mid) ++ ids l1.
Proof.
  intros c buf0 next0 h s MTU BUF R D.
  induction R as [|h s x R IH NC L|h s n R IH NC N|h s s' R IH NC T|h s p s' R IH NC T]; intros mid p1 old E NI.
  - destruct mid; discriminate.
  - destruct mid as [|y mid]; [discriminate|]. cbn in E. inversion E; subst y h. cbn [injected] in NI.
    pose proof (distinct_tail _ _ D) as D'.
    specialize (IH D' mid p1 old eq_refl NI). cbn [ni_q q_insert list_q injected].
    pose proof (run_inv true c buf0 next0 MTU BUF _ _ R D') as V.
    destruct IH as [O|(l0 & l1 & l2 & o & m & A & B & C & F)].
    + left. unfold ids. rewrite map_app. cbn. intro I. apply in_app_or in I as [I|[I|[]]]; [apply O; exact I|].
      destruct (i_known _ _ _ _ V p1) as [m [M1 M2]].
      { clear. induction mid as [|[| |] mid IH]; cbn; try apply in_or_app; auto. right. left. reflexivity. }
      unfold distinct in D. cbn in D. rewrite map_app in D. apply NoDup_remove_2 in D. rewrite app_nil_r in D.
      apply D. rewrite I, <- M2. apply in_map. exact M1.
    + right. exists l0, l1, (l2 ++ [(0, x)]), o, m. rewrite B, <- app_assoc. repeat split; assumption.
  - destruct mid as [|y mid]; [discriminate|]. cbn in E. inversion E; subst y h. exact (IH D mid p1 old eq_refl NI).
  - apply turn_stop in T as [-> _]. exact (IH D mid p1 old E NI).
  - pose proof (distinct_tail _ _ D) as D'. pose proof (run_inv true c buf0 next0 MTU BUF _ _ R D') as V.
    apply turn_packet in T as (off & m & r & QE & W). cbv zeta in W. destruct W as (SZ & PI & PS & _ & _ & _ & ->).
    set (left := n_len m - off) in *. set (size := Z.min left (c_mtu c)) in *.
    pose proof (i_ids _ _ _ _ V) as ND. rewrite QE in ND. cbn in ND. apply NoDup_cons_iff in ND as [N1 N2].
    destruct mid as [|y mid]; cbn in E; inversion E; subst; cbn [ni_q injected].
    + (* the first packet *)
      destruct (size =? left); [left; rewrite PI; exact N1|]. right.
      exists (ids r), r, [], (off + size), m. split; [|repeat split; auto].
      apply (Permutation_trans (l' := map n_id (map snd (ni_q s)))).
      * apply Permutation_map. apply (unfinished_queue c buf0); assumption.
      * rewrite QE, map_map. cbn. rewrite PI. apply Permutation_refl.
    + (* a packet of another message *)
      assert (NP : np_id p <> np_id p1) by (apply NI; cbn; apply in_or_app; right; left; reflexivity).
      assert (NI' : forall q, In q (injected mid) -> np_id q <> np_id p1).
      { intros q Q. apply NI. cbn. apply in_or_app. left. exact Q. }
      destruct (IH D' mid p1 old eq_refl NI') as [O|(l0 & l1 & l2 & o & m' & A & B & C & F)].
      * left. rewrite QE in O. destruct (size =? left); [intro I; apply O; right; exact I|].
        unfold ids. rewrite map_app. cbn. intro I. apply O. cbn. apply in_app_or in I as [I|[I|[]]]; auto.
      * right. rewrite QE in B. destruct l1 as [|e l1]; cbn in B; inversion B; subst.
        { exfalso. apply NP. congruence. }
        exists (map np_id (injected mid) ++ ids ((off, m) :: l1)), l1, (if size =? left then l2 else l2 ++ [(off + size, m)]), o, m'.
        split; [exact A|]. split; [destruct (size =? left); [reflexivity|rewrite <- app_assoc; reflexivity]|].
        split; [exact C|]. rewrite map_app, <- app_assoc. cbn. rewrite PI. reflexivity.
Qed.
