From Coq Require Import List ZArith Arith Bool Lia Relations.
From Verif Require Import TorusModel TorusSpec TorusProof TorusRoute.
Import ListNotations.

Lemma walk_more : forall H dims (route : nat -> H -> outcome H) f f' s h r,
  walk dims route f s h = Some r -> f <= f' -> walk dims route f' s h = Some r.
Proof.
  induction f; intros; [discriminate|]. destruct f'; [lia|]. cbn [walk] in *.
  destruct (route s h); auto. destruct (next_switch dims s port); auto.
  destruct (walk dims route f n h0) as [[[? ?] ?]|] eqn:W; try discriminate.
  rewrite (IHf f' _ _ _ W) by lia. auto.
Qed.

Section V.
Variables (dims : list nat) (conc nid : nat).
Hypothesis B : pos_dims dims.
Hypothesis T : nid / conc < prod dims.
Let t := nid / conc.
Let ejport := nid mod conc + 2 * length dims.

(** any router that, in final stage, ejects or does [final_case] *)
Definition finalizes (r : nat -> vhdr -> outcome vhdr) : Prop :=
  forall my h, v_stage h = Final ->
    r my h = if nid / conc =? my then Eject ejport else final_case dims my (nid / conc) h.
Definition detours (r : nat -> vhdr -> outcome vhdr) : Prop :=
  forall my h, v_stage h = Valiant ->
    r my h = if nid / conc =? my then Eject ejport
             else if my =? v_dest h then final_case dims my (nid / conc) h
             else match minimal_route dims my (v_dest h) (v_hdr h) with
                  | Some h' => Forward (h_port h') (h_vc h') (VHdr h' Valiant (v_dest h))
                  | None => Abort
                  end.

Lemma final_step : forall s h, s < prod dims -> s <> t ->
  exists p vc h' s', final_case dims s t h = Forward p vc h' /\ v_stage h' = Final /\
    next_switch dims s p = Some s' /\ s' < prod dims /\
    minimal_distance dims s' t + 1 = minimal_distance dims s t.
Proof.
  intros. destruct (hop_char dims s t (v_hdr h) B H T H0) as (j & Hj & _ & _ & Hr & Hn & Hlt & Hd).
  cbv zeta in *. unfold final_case. rewrite Hr. do 4 eexists. split; [reflexivity|].
  split; [reflexivity|]. split; [exact Hn|]. split; auto.
Qed.

(** the packet went through [inter] after exactly its minimal distance, or the destination lay
    on the way there *)
Definition via inter s (tr : list chan) : Prop :=
  In inter (map ch_switch tr) /\ length tr = minimal_distance dims s inter + minimal_distance dims inter t
  \/ length tr + minimal_distance dims t inter = minimal_distance dims s inter.

Lemma walk_final : forall r, finalizes r -> forall n s h, s < prod dims -> v_stage h = Final ->
  minimal_distance dims s t = n ->
  exists tr, walk dims r (S n) s h = Some (tr, t, ejport) /\ length tr = n.
Proof.
  intros r F. pose proof B as P. induction n; intros.
  - apply dist_zero in H1; auto. subst s. exists []. cbn [walk]. rewrite F by auto.
    fold t. rewrite Nat.eqb_refl. auto.
  - assert (Hne : s <> t). { intro. subst s. rewrite dist_refl in H1; auto. discriminate. }
    destruct (final_step s h H Hne) as (p & vc & h' & s' & Hf & Hst & Hn & Hlt & Hd).
    destruct (IHn s' h' Hlt Hst ltac:(lia)) as (tr & Hw & Hl).
    exists (Chan s p vc :: tr). split; [|simpl; lia].
    cbn [walk] in Hw |- *. rewrite (F s h) by auto. fold t. destruct (Nat.eqb_spec t s); try congruence.
    rewrite Hf, Hn. rewrite Hw. auto.
Qed.

Lemma walk_detour : forall r, finalizes r -> detours r -> forall n s h, s < prod dims ->
  v_stage h = Valiant -> v_dest h < prod dims -> minimal_distance dims s (v_dest h) = n ->
  exists tr, walk dims r (S (n + minimal_distance dims (v_dest h) t)) s h = Some (tr, t, ejport)
     /\ length tr <= n + minimal_distance dims (v_dest h) t /\ via (v_dest h) s tr.
Proof.
  intros r F D. pose proof B as P. induction n; intros.
  - apply dist_zero in H2; auto. subst s. rewrite Nat.add_0_l.
    destruct (Nat.eq_dec (v_dest h) t) as [E|E].
    + exists []. split; [|split; [simpl; lia|right; rewrite E; auto]]. cbn [walk]. rewrite D by auto. fold t. rewrite E.
      rewrite Nat.eqb_refl. auto.
    + destruct (final_step (v_dest h) h H1 E) as (p & vc & h' & s' & Hf & Hst & Hn & Hlt & Hd).
      destruct (walk_final r F _ s' h' Hlt Hst eq_refl) as (tr & Hw & Hl).
      exists (Chan (v_dest h) p vc :: tr). rewrite <- Hd.
      split; [|split; [simpl; lia|left; split; [left; auto|rewrite dist_refl by auto; simpl; lia]]].
      rewrite Nat.add_1_r. remember (S (minimal_distance dims s' t)) as m.
      cbn [walk]. rewrite D by auto. fold t. destruct (Nat.eqb_spec t (v_dest h)); try congruence.
      rewrite Nat.eqb_refl, Hf, Hn, Hw. auto.
  - destruct (Nat.eq_dec s t) as [E|E].
    + subst s. exists []. split; [|split; [simpl; lia|right; auto]]. cbn [walk]. rewrite D by auto. fold t.
      rewrite Nat.eqb_refl. auto.
    + assert (s <> v_dest h). { intro. subst s. rewrite dist_refl in H2; auto. discriminate. }
      destruct (hop_char dims s (v_dest h) (v_hdr h) B H H1 H3) as (j & Hj & _ & _ & Hr & Hn & Hlt & Hd).
      cbv zeta in *.
      set (dir := pdir (nth j dims 0) (coord dims j s) (coord dims j (v_dest h))) in *.
      set (h' := path dir j (nth j dims 0) (coord dims j s) (v_hdr h)) in *.
      destruct (IHn (nbr dims s j dir) (VHdr h' Valiant (v_dest h)) Hlt eq_refl H1 ltac:(simpl; lia)) as (tr & Hw & Hl & Hv).
      cbn [v_dest] in Hw, Hl, Hv.
      exists (Chan s (h_port h') (h_vc h') :: tr). split; [|split; [simpl; lia|]].
      2:{ unfold via in *. destruct Hv as [[Hv1 Hv2]|Hv]; [left; split; [right; auto|]|right]; simpl length; lia. }
      replace (S n + minimal_distance dims (v_dest h) t) with (S (n + minimal_distance dims (v_dest h) t)) by lia.
      remember (S (n + minimal_distance dims (v_dest h) t)) as m.
      cbn [walk]. rewrite D by auto. fold t. destruct (Nat.eqb_spec t s); try congruence.
      destruct (Nat.eqb_spec s (v_dest h)); try congruence.
      rewrite Hr, Hn, Hw. auto.
Qed.

Lemma valiant_finalizes : forall inter, finalizes (fun my h => valiant_route dims conc inter my nid h).
Proof. intros inter my h Hs. unfold valiant_route. rewrite Hs. auto. Qed.
Lemma valiant_detours : forall inter, detours (fun my h => valiant_route dims conc inter my nid h).
Proof. intros inter my h Hs. unfold valiant_route. rewrite Hs. auto. Qed.
Lemma ugal_finalizes : forall inter ch, finalizes (fun my h => ugal_route dims conc inter ch my nid h).
Proof. intros inter ch my h Hs. unfold ugal_route. rewrite Hs. auto. Qed.
Lemma ugal_detours : forall inter ch, detours (fun my h => ugal_route dims conc inter ch my nid h).
Proof. intros inter ch my h Hs. unfold ugal_route. rewrite Hs. auto. Qed.

(** routers whose initial stage starts a detour to [inter] *)
Lemma detour_start : forall r inter, finalizes r -> detours r -> inter < prod dims ->
  forall s h, s < prod dims -> s <> inter ->
  (s <> t -> r s h = match minimal_route dims s inter (v_hdr h) with
           | Some h' => Forward (h_port h') (h_vc h') (VHdr h' Valiant inter)
           | None => Abort end) ->
  (s = t -> r s h = Eject ejport) ->
  exists tr, walk dims r (S (minimal_distance dims s inter + minimal_distance dims inter t)) s h
     = Some (tr, t, ejport) /\ length tr <= minimal_distance dims s inter + minimal_distance dims inter t /\ via inter s tr.
Proof.
  intros r inter F D Hi s h Hs Hne Hstart Hej. pose proof B as P.
  destruct (Nat.eq_dec s t) as [E|E].
  - exists []. split; [|split; [simpl; lia|right; subst s; auto]]. cbn [walk]. rewrite Hej by auto. subst; auto.
  - destruct (hop_char dims s inter (v_hdr h) B Hs Hi Hne) as (j & Hj & _ & _ & Hr & Hn & Hlt & Hd).
    cbv zeta in *.
    set (dir := pdir (nth j dims 0) (coord dims j s) (coord dims j inter)) in *.
    set (h' := path dir j (nth j dims 0) (coord dims j s) (v_hdr h)) in *.
    destruct (walk_detour r F D _ (nbr dims s j dir) (VHdr h' Valiant inter) Hlt eq_refl Hi eq_refl)
      as (tr & Hw & Hl & Hv). cbn [v_dest] in *.
    exists (Chan s (h_port h') (h_vc h') :: tr). rewrite <- Hd. split; [|split; [simpl; lia|]].
    2:{ unfold via in *. destruct Hv as [[Hv1 Hv2]|Hv]; [left; split; [right; auto|]|right]; simpl length; lia. }
    replace (minimal_distance dims (nbr dims s j dir) inter + 1 + minimal_distance dims inter t)
      with (S (minimal_distance dims (nbr dims s j dir) inter + minimal_distance dims inter t)) by lia.
    remember (S (minimal_distance dims (nbr dims s j dir) inter + minimal_distance dims inter t)) as m.
    cbn [walk]. rewrite Hstart by auto. rewrite Hr, Hn, Hw. auto.
Qed.

Lemma valiant_delivers : forall inter s, inter < prod dims -> s < prod dims -> inter <> s ->
  exists tr, walk dims (fun my h => valiant_route dims conc inter my nid h)
      (S (minimal_distance dims s inter + minimal_distance dims inter t)) s vhdr0
     = Some (tr, t, ejport) /\ length tr <= minimal_distance dims s inter + minimal_distance dims inter t /\ via inter s tr.
Proof.
  intros. apply detour_start; auto using valiant_finalizes, valiant_detours.
  - intro. unfold valiant_route. fold t. destruct (Nat.eqb_spec t s); try congruence. auto.
  - intro. unfold valiant_route. fold t. destruct (Nat.eqb_spec t s); try congruence. auto.
Qed.

Lemma ugal_nonmin_delivers : forall inter s, inter < prod dims -> s < prod dims -> inter <> s ->
  exists tr, walk dims (fun my h => ugal_route dims conc inter true my nid h)
      (S (minimal_distance dims s inter + minimal_distance dims inter t)) s vhdr0
     = Some (tr, t, ejport) /\ length tr <= minimal_distance dims s inter + minimal_distance dims inter t /\ via inter s tr.
Proof.
  intros. apply detour_start; auto using ugal_finalizes, ugal_detours.
  - intro. unfold ugal_route. fold t. destruct (Nat.eqb_spec t s); try congruence. auto.
  - intro. unfold ugal_route. fold t. destruct (Nat.eqb_spec t s); try congruence. auto.
Qed.

Lemma ugal_min_delivers : forall inter n s h, s < prod dims -> v_stage h = Initial \/ v_stage h = MinOnly ->
  minimal_distance dims s t = n ->
  exists tr, walk dims (fun my h => ugal_route dims conc inter false my nid h) (S n) s h
     = Some (tr, t, ejport) /\ length tr = n.
Proof.
  intros inter. pose proof B as P. induction n; intros.
  - apply dist_zero in H1; auto. subst s. exists []. cbn [walk]. unfold ugal_route at 1.
    fold t. rewrite Nat.eqb_refl. auto.
  - assert (Hne : s <> t). { intro. subst s. rewrite dist_refl in H1; auto. discriminate. }
    destruct (hop_char dims s t (v_hdr h) B H T Hne) as (j & Hj & _ & _ & Hr & Hn & Hlt & Hd).
    cbv zeta in *.
    set (dir := pdir (nth j dims 0) (coord dims j s) (coord dims j t)) in *.
    set (h' := path dir j (nth j dims 0) (coord dims j s) (v_hdr h)) in *.
    remember (S n) as m.
    destruct H0 as [E|E].
    + destruct (IHn (nbr dims s j dir) (VHdr h' MinOnly t) Hlt ltac:(right; auto) ltac:(lia)) as (tr & Hw & Hl).
      exists (Chan s (h_port h') (h_vc h') :: tr). split; [|simpl; lia].
      cbn [walk]. unfold ugal_route at 1. fold t. destruct (Nat.eqb_spec t s); try congruence.
      rewrite E. cbv iota beta. rewrite Hr, Hn, Hw. auto.
    + destruct (IHn (nbr dims s j dir) (VHdr h' MinOnly (v_dest h)) Hlt ltac:(right; auto) ltac:(lia)) as (tr & Hw & Hl).
      exists (Chan s (h_port h') (h_vc h') :: tr). split; [|simpl; lia].
      cbn [walk]. unfold ugal_route at 1. fold t. destruct (Nat.eqb_spec t s); try congruence.
      rewrite E. cbv iota beta. rewrite Hr, Hn, Hw. auto.
Qed.

(** *** First-phase channels (vc 0 and 1) of Valiant routing *)
Hypothesis L : length dims <= 128.

Lemma final_vcs : forall r, finalizes r -> forall f s h tr e p, v_stage h = Final ->
  walk dims r f s h = Some (tr, e, p) -> Forall (fun c => 2 <= ch_vc c) tr.
Proof.
  intros r F. induction f; intros; [discriminate|]. cbn [walk] in H0. rewrite F in H0 by auto.
  destruct (nid / conc =? s). { injection H0; intros; subst; constructor. }
  unfold final_case in H0. destruct (minimal_route dims s (nid / conc) (v_hdr h)) as [h1|]; try discriminate.
  cbn [h_port h_vc] in H0. destruct (next_switch dims s (h_port h1)); try discriminate.
  match type of H0 with context [walk ?a ?b ?c ?d ?e] => destruct (walk a b c d e) as [[[? ?] ?]|] eqn:W; try discriminate end.
  injection H0; intros; subst. constructor. simpl; lia. eapply IHf; [|eauto]. auto.
Qed.

Lemma detour_vcs : forall r, finalizes r -> detours r -> forall f s h tr e p, v_stage h = Valiant ->
  s = v_dest h -> walk dims r f s h = Some (tr, e, p) -> Forall (fun c => 2 <= ch_vc c) tr.
Proof.
  intros r F D. destruct f; intros; [discriminate|]. cbn [walk] in H1. rewrite D in H1 by auto.
  destruct (nid / conc =? s). { injection H1; intros; subst; constructor. }
  rewrite H0, Nat.eqb_refl in H1.
  unfold final_case in H1. destruct (minimal_route dims (v_dest h) (nid / conc) (v_hdr h)) as [h1|]; try discriminate.
  cbn [h_port h_vc] in H1. destruct (next_switch dims _ (h_port h1)); try discriminate.
  match type of H1 with context [walk ?a ?b ?c ?d ?e] => destruct (walk a b c d e) as [[[? ?] ?]|] eqn:W; try discriminate end.
  injection H1; intros; subst. constructor. simpl; lia. eapply final_vcs; [exact F| |eauto]. auto.
Qed.

(** consecutive first-phase channels increase in rank *)
Definition phase1_step (r : nat -> vhdr -> outcome vhdr) inter s h :=
  r s h = match minimal_route dims s inter (v_hdr h) with
           | Some h' => Forward (h_port h') (h_vc h') (VHdr h' Valiant inter)
           | None => Abort end.

Lemma detour_ranked : forall r inter, finalizes r -> detours r -> inter < prod dims ->
  forall f s h tr e p, s < prod dims -> s <> inter -> phase1_step r inter s h ->
  crossed_ok dims s inter (v_hdr h) ->
  walk dims r f s h = Some (tr, e, p) ->
  forall a b, consecutive tr a b -> ch_vc a < 2 -> ch_vc b < 2 -> lex (crank dims a) (crank dims b).
Proof.
  intros r inter F D Hi. pose proof B as P.
  induction f; intros s h tr e p Hs Hne Hstep Hok Hw a b Hab Ha Hb; [discriminate|].
  cbn [walk] in Hw. rewrite Hstep in Hw.
  destruct (hop_char dims s inter (v_hdr h) B Hs Hi Hne) as (j & Hj & Hpre & Hnc & Hr & Hn & Hlt & _).
  cbv zeta in *. rewrite Hr, Hn in Hw.
  pose proof (crossed_step dims s inter (v_hdr h) j L P Hj Hnc Hok) as Hok'. cbv zeta in Hok'.
  set (dir := pdir (nth j dims 0) (coord dims j s) (coord dims j inter)) in *.
  set (h' := path dir j (nth j dims 0) (coord dims j s) (v_hdr h)) in *.
  destruct (walk dims _ f (nbr dims s j dir) (VHdr h' Valiant inter)) as [[[tr' e'] p']|] eqn:W; try discriminate.
  injection Hw; intros; subst tr e' p'.
  destruct (Nat.eq_dec (nbr dims s j dir) inter) as [Ei|Ei].
  - apply (detour_vcs r F D) in W; auto.
    apply consecutive_cons in Hab. destruct Hab as [(post & E & _)|(pre & post & E)]; exfalso.
    + rewrite E in W. apply Forall_inv in W. simpl in W. lia.
    + rewrite E in W. apply Forall_app in W. destruct W as [_ W]. apply Forall_inv in W. lia.
  - destruct (Nat.eq_dec (nbr dims s j dir) t) as [Et|Et].
    { exfalso. destruct f; [discriminate|]. cbn [walk] in W. rewrite D in W by auto.
      fold t in W. rewrite Et, Nat.eqb_refl in W. injection W; intros; subst.
      apply consecutive_cons in Hab. destruct Hab as [(post & E & _)|(pre & post & E)]; [discriminate|].
      destruct pre; discriminate. }
    assert (Hstep' : phase1_step r inter (nbr dims s j dir) (VHdr h' Valiant inter)).
    { unfold phase1_step. rewrite D by auto. fold t. cbn [v_dest v_hdr].
      destruct (Nat.eqb_spec t (nbr dims s j dir)); try congruence.
      destruct (Nat.eqb_spec (nbr dims s j dir) inter); try congruence. }
    apply consecutive_cons in Hab. destruct Hab as [(post & E & ->)|Hab].
    + destruct f; [discriminate|]. cbn [walk] in W. rewrite Hstep' in W. cbn [v_hdr] in W.
      destruct (hop_char dims (nbr dims s j dir) inter h' B Hlt Hi Ei)
        as (j2 & Hj2 & Hpre2 & Hne2 & Hr2 & Hn2 & Hlt2 & _).
      cbv zeta in *. rewrite Hr2, Hn2 in W.
      match type of W with context [walk ?a ?b ?c ?d ?e] => destruct (walk a b c d e) as [[[? ?] ?]|] eqn:W3; try discriminate end.
      rewrite E in W. injection W; intros; subst b.
      eapply two_hops with (s := s) (t := inter) (h := v_hdr h) (j := j) (j2 := j2); try reflexivity; auto.
    + eapply (IHf _ (VHdr h' Valiant inter)); eauto.
Qed.
End V.

Lemma valiant_phase1_free : forall dims conc, pos_dims dims -> length dims <= 128 ->
  deadlock_free (fun a b => ch_vc a < 2 /\ ch_vc b < 2 /\
                            waits_for dims conc vhdr0 (valiant_policy dims conc) a b).
Proof.
  intros. apply ranked_acyclic with (crank dims).
  intros a b (Ha & Hb & s & nid & r & fuel & tr & e & p & Hs & Ht & (inter & Hi & Hns & Hnt & ->) & Hw & Hab).
  destruct (Nat.eq_dec s (nid / conc)) as [E|E].
  { destruct fuel; [discriminate|]. cbn [walk] in Hw. unfold valiant_route at 1 in Hw.
    rewrite <- E, Nat.eqb_refl in Hw. injection Hw; intros; subst.
    destruct Hab as (pre & post & X). destruct pre; discriminate. }
  refine (detour_ranked dims conc nid H Ht H0 _ inter (valiant_finalizes _ _ _ inter) (valiant_detours _ _ _ inter)
    Hi fuel s vhdr0 tr e p Hs _ _ _ Hw a b Hab Ha Hb); auto.
  - unfold phase1_step, valiant_route. destruct (Nat.eqb_spec (nid / conc) s); try congruence. auto.
  - unfold crossed_ok. intro X. simpl in X. discriminate X.
Qed.

(** *** Valiant routing on a ring of eight has a cyclic wait on vc 3 *)
Definition vwait a b := waits_for [8] 1 vhdr0 (valiant_policy [8] 1) a b.
Definition tr_of inter s nid : list chan :=
  match walk [8] (fun my h => valiant_route [8] 1 inter my nid h) 20 s vhdr0 with
  | Some (tr, _, _) => tr | None => [] end.
Definition b_consec (l : list chan) (a b : chan) : bool :=
  existsb (fun '(x, y) => (ch_switch x =? ch_switch a) && (ch_port x =? ch_port a) && (ch_vc x =? ch_vc a) &&
                          (ch_switch y =? ch_switch b) && (ch_port y =? ch_port b) && (ch_vc y =? ch_vc b))
          (combine l (tl l)).
Lemma b_consec_ok : forall l a b, b_consec l a b = true -> consecutive l a b.
Proof.
  unfold b_consec. induction l; simpl; intros; [discriminate|].
  destruct l; simpl in *; [discriminate|]. apply orb_true_iff in H. destruct H.
  - repeat (apply andb_true_iff in H; destruct H as [H ?]).
    apply Nat.eqb_eq in H, H0, H1, H2, H3, H4. exists [], l.
    destruct a, a0, b, c; simpl in *; subst; auto.
  - apply IHl in H. destruct H as (pre & post & E). exists (a :: pre), post. rewrite E. auto.
Qed.
Lemma vwait_by : forall inter s nid a b, inter < 8 -> s < 8 -> nid < 8 -> inter <> s -> inter <> nid ->
  b_consec (tr_of inter s nid) a b = true -> vwait a b.
Proof.
  intros. apply b_consec_ok in H4. unfold tr_of in H4.
  destruct (walk [8] _ 20 s vhdr0) as [[[tr e] p]|] eqn:W.
  - exists s, nid, (fun my h => valiant_route [8] 1 inter my nid h), 20, tr, e, p.
    rewrite Nat.div_1_r. change (prod [8]) with 8.
    repeat split; auto. exists inter. rewrite Nat.div_1_r. change (prod [8]) with 8. auto.
  - destruct H4 as (pre & post & X). destruct pre; discriminate.
Qed.

Lemma valiant_deadlock : ~ deadlock_free vwait.
Proof.
  intro D. apply (D (Chan 0 0 3)).
  Ltac edge i s t := apply t_step, (vwait_by i s t); [lia|lia|lia|lia|lia|vm_compute; reflexivity].
  apply t_trans with (Chan 1 0 3); [edge 0 7 4|].
  apply t_trans with (Chan 2 0 3); [edge 0 7 4|].
  apply t_trans with (Chan 3 0 3); [edge 0 7 4|].
  apply t_trans with (Chan 4 0 3); [edge 3 7 6|].
  apply t_trans with (Chan 5 0 3); [edge 3 7 6|].
  apply t_trans with (Chan 6 0 3); [edge 5 0 1|].
  apply t_trans with (Chan 7 0 3); [edge 5 0 1|].
  edge 5 0 1.
Qed.
