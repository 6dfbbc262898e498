(** Legal steps do no harm. *)
From Coq Require Import List Arith Bool Lia.
From Verif Require Import ThModel ThSpec ThProof.
Import ListNotations.

(** Every legal step keeps the invariant and does no harm. *)
Lemma unblock_good : forall w me j, inv w -> act w = Some me -> j < n w -> md (th w j) = Io ->
  unblock j w = Good (send (ESwitch j) (set_md j Ready w)).
Proof.
  intros w me j I A L IO. unfold unblock, use. rewrite (not_freed w j I) by congruence. simpl.
  assert (C : is_canceled (st (th w j)) = false)
    by (pose proof (i_can w I j L); destruct (st (th w j)); auto; congruence).
  rewrite C, IO. reflexivity.
Qed.

Lemma step_inv : forall w l o, inv w -> legal w l -> step w l o -> exists w', o = Good w' /\ inv w'.
Proof.
  intros w l o I LG ST. inversion ST as [w0 me op A EW EL EO|w0 e r A Q EW EL EO|w0 j A L IO EW EL EO];
    subst; clear ST.
  - pose proof (i_act w I me A) as (Lm & Rm).
    assert (F0 : freed w 0 = false) by (apply (main_alive w me); auto; congruence).
    destruct op as [d|u|u| |j| |]; cbn [run_op legal] in *.
    + eapply inv_create; eauto.
    + destruct LG as (S & U & D & NJ). unfold join, get_sub, use. rewrite F0. simpl.
      rewrite (proj2 (mem_in u (subs w)) S). simpl. rewrite (sub_not_freed w u I S). simpl.
      destruct (is_done (st (th w u))) eqn:DN.
      * assert (DD : st (th w u) = SDone) by (destruct (st (th w u)); auto; discriminate).
        unfold joined, del. rewrite (sub_not_freed w u I S). simpl. unfold remove_sub, use.
        pose proof (i_subs w I u S). simpl freed. rewrite put_ne by lia. rewrite F0. simpl.
        eexists. split; [reflexivity|]. eapply inv_join_done; eauto.
      * eexists. split; [reflexivity|].
        assert (J : jn (th w u) = []).
        { destruct (jn (th w u)) as [|t l] eqn:J; auto. exfalso.
          pose proof (i_subs w I u S).
          destruct (i_jn w I t u ltac:(lia) ltac:(rewrite J; left; auto)) as (L & X).
          destruct (NJ t L). contradiction. }
        rewrite J. simpl app. apply inv_join_wait; auto. intro X. rewrite X in DN. discriminate.
    + destruct LG as (S & NJ). unfold detach, get_sub, use. rewrite F0. simpl.
      rewrite (proj2 (mem_in u (subs w)) S). simpl. rewrite (sub_not_freed w u I S). simpl.
      eexists. split; [reflexivity|]. eapply inv_detach; eauto.
    + eexists. split; [reflexivity|]. apply inv_io; auto.
    + destruct LG as (L & IO). rewrite (unblock_good w me j); auto.
      eexists. split; [reflexivity|]. eapply inv_unblock; eauto.
    + assert (C : is_canceled (st (th w me)) = false)
        by (pose proof (i_can w I me Lm); destruct (st (th w me)); auto; congruence).
      assert (NJ : det (th w me) = true -> jn (th w me) = []).
      { intro DT. destruct (jn (th w me)) as [|t l] eqn:J; auto. exfalso.
        destruct (i_jn w I t me Lm ltac:(rewrite J; left; auto)) as (L & X).
        destruct (i_join w I t me L X) as (_ & _ & K & _). congruence. }
      unfold finish. destruct (me =? 0) eqn:M.
      * apply Nat.eqb_eq in M. subst me. rewrite (LG eq_refl). simpl cancel_all. cbn [bind].
        unfold cleanup_thread. simpl th. rewrite C, (i_det0 w I). simpl andb. cbn iota.
        unfold remove_sub, use. simpl freed. rewrite F0. cbn [bind].
        unfold complete. simpl jn. rewrite (NJ (i_det0 w I)). simpl unblock_all. cbn [bind].
        eexists. split; [reflexivity|].
        pose proof (inv_end_det w 0 I A (i_det0 w I) LG) as G. rewrite (LG eq_refl) in G. exact G.
      * unfold cleanup_thread. rewrite C. destruct (det (th w me)) eqn:DT; simpl andb; cbn iota.
        -- unfold remove_sub, use. rewrite F0. cbn [bind].
           unfold complete. simpl jn. rewrite (NJ eq_refl). simpl unblock_all. cbn [bind].
           eexists. split; [reflexivity|]. apply inv_end_det; auto.
        -- cbn [bind]. unfold complete.
           destruct (i_jn1 w I me Lm) as [J|(j & J)]; rewrite J.
           ++ simpl unblock_all. cbn [bind]. eexists. split; [reflexivity|]. apply inv_end; auto.
           ++ destruct (i_jn w I j me Lm ltac:(rewrite J; left; auto)) as (Lj & Mj).
              assert (JM : j <> me) by (intro; subst; congruence).
              simpl unblock_all. unfold unblock, use. simpl freed.
              rewrite (not_freed w j I) by congruence. cbn [bind]. simpl th.
              rewrite !(put_ne _ _ me _ j JM).
              assert (Cj : is_canceled (st (th w j)) = false)
                by (pose proof (i_can w I j Lj); destruct (st (th w j)); auto; congruence).
              rewrite Cj, Mj. cbn [bind ready].
              eexists. split; [reflexivity|]. apply inv_end_join; auto.
    + destruct LG.
  - pose proof (qhd w e r Q) as IN. destruct e as [t|t|t]; cbn [run_ev].
    + destruct (i_start w I t IN) as (L & FR).
      unfold use. simpl freed. rewrite (not_freed w t I) by congruence. cbn [bind]. simpl freed.
      rewrite (main_alive w t I L) by congruence. cbn [bind].
      eexists. split; [reflexivity|]. eapply inv_begin; eauto.
    + destruct (i_switch w I t IN) as (L & [E|(u & E)]); unfold use; simpl freed;
        rewrite (not_freed w t I) by congruence; cbn [bind]; simpl th; rewrite E.
      * eexists. split; [reflexivity|]. eapply inv_switch; eauto.
      * destruct (i_ready w I t u L E) as (S & EN). pose proof (i_subs w I u S).
        unfold joined, del. simpl freed. rewrite (sub_not_freed w u I S). cbn [bind].
        unfold remove_sub, use. simpl freed. rewrite put_ne by lia.
        rewrite (main_alive w t I L) by congruence. cbn [bind].
        eexists. split; [reflexivity|]. apply (inv_switch_join w t u r); auto.
    + destruct (i_del w I t IN) as (L & EN & FR & SB). unfold del. simpl freed. rewrite FR.
      eexists. split; [reflexivity|]. eapply inv_delete; eauto.
  - unfold wake, use. rewrite (not_freed w j I) by congruence. cbn [bind].
    assert (C : is_canceled (st (th w j)) = false)
      by (pose proof (i_can w I j L); destruct (st (th w j)); auto; congruence).
    rewrite C. eexists. split; [reflexivity|]. apply inv_wake; auto.
Qed.

Lemma reach_inv : forall w, reach w -> inv w.
Proof.
  intros w H. induction H as [|w l w' R IH LG ST].
  - apply inv_start.
  - destruct (step_inv w l _ IH LG ST) as (w1 & E & I). injection E as <-. auto.
Qed.

(** A call leaves the caller active, or nobody. *)
Lemma op_act : forall me o w w', Good w' = run_op me o w -> act w' = act w \/ act w' = None.
Proof.
  assert (BU : forall t w w', use t w = Good w' -> w' = w)
    by (unfold use; intros t w w'; destruct (freed w t); congruence).
  assert (UB : forall j w w', unblock j w = Good w' -> act w' = act w).
  { unfold unblock, use, del. intros j w w'. destruct (freed w j) eqn:F; simpl; [discriminate|].
    destruct (is_canceled (st (th w j))); [rewrite F|]; intros E; injection E as <-; reflexivity. }
  intros me o w w' E. symmetry in E. destruct o as [d|u|u| |j| |]; cbn [run_op] in E.
  - unfold create, use in E. destruct (freed w 0); simpl in E; [discriminate|]. injection E as <-. auto.
  - unfold join, get_sub, use in E. destruct (freed w 0) eqn:F; simpl in E; [discriminate|].
    destruct (mem u (subs w)); simpl in E; [|discriminate].
    destruct (freed w u) eqn:Fu; simpl in E; [discriminate|].
    destruct (is_done (st (th w u))).
    + unfold joined, del in E. rewrite Fu in E. simpl in E. unfold remove_sub, use in E.
      simpl freed in E. destruct (put (freed w) u true 0); simpl in E; [discriminate|].
      injection E as <-. auto.
    + injection E as <-. auto.
  - unfold detach, get_sub, use in E. destruct (freed w 0) eqn:F; simpl in E; [discriminate|].
    destruct (mem u (subs w)); simpl in E; [|discriminate].
    destruct (freed w u) eqn:Fu; simpl in E; [discriminate|]. injection E as <-. auto.
  - injection E as <-. auto.
  - left. eapply UB; eauto.
  - right. unfold finish in E.
    destruct (if me =? 0 then _ else _) as [w1| |]; simpl in E; try discriminate.
    unfold complete in E. destruct (unblock_all _ _) as [w2| |]; simpl in E; try discriminate.
    injection E as <-. auto.
  - injection E as <-. auto.
Qed.
