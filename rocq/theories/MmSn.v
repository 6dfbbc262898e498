(** The flows and channels of SNAPPR memory. *)
From Coq Require Import List NArith Bool Arith Lia Permutation.
From Verif Require Import MmModel MmProof.
Import ListNotations.
Open Scope N_scope.

(** * Channels *)
Definition vend (d : N) (v : served) : N := v_start v + d * rbytes (v_req v).
Record Cinv (nch : nat) (d : N) (s : smem) : Prop := {
  k_free : forall v, In v (log s) -> vend d v <= nfree s (v_ch v);
  k_now : forall v, In v (log s) -> v_issue v <= now s;
  k_ord : ForallOrdPairs (fun x y => v_issue x <= v_issue y /\ (v_ch x = v_ch y -> vend d x <= v_start y)) (log s);
  k_last : forall q, nfree s q = 0 \/ exists v, In v (log s) /\ v_ch v = q /\ nfree s q = vend d v;
  k_start : forall a v b, log s = a ++ v :: b -> v_issue v <= v_start v /\
      (v_start v = v_issue v \/ exists x, In x a /\ v_ch x = v_ch v /\ v_start v = vend d x);
  k_inter : inter s = (length (log s) mod nch)%nat;
  k_rr : forall i v, nth_error (log s) i = Some v -> v_ch v = (i mod nch)%nat }.

Lemma pairs_snoc {A} (R : A -> A -> Prop) l x : ForallOrdPairs R l -> Forall (fun y => R y x) l ->
  ForallOrdPairs R (l ++ [x]).
Proof.
  induction 1 as [|y t F _ IH]; simpl; intros H; [repeat constructor|].
  inversion H; subst. constructor; auto. apply Forall_app. auto.
Qed.
Lemma snoc_split {A} (l : list A) x a v b : l ++ [x] = a ++ v :: b ->
  (b = [] /\ a = l /\ v = x) \/ exists b', b = b' ++ [x] /\ l = a ++ v :: b'.
Proof.
  revert a. induction l as [|y t IH]; intros a H.
  - destruct a as [|z a]; simpl in H; injection H; intros; subst; auto. destruct a; discriminate.
  - destruct a as [|z a]; simpl in H; injection H; intros; subst.
    + right. exists t. auto.
    + destruct (IH _ H0) as [(?&?&?)|(b'&?&?)]; subst; auto. right. exists b'. auto.
Qed.
Lemma nth_snoc {A} (l : list A) x i v : nth_error (l ++ [x]) i = Some v ->
  nth_error l i = Some v \/ (i = length l /\ v = x).
Proof.
  intros H. destruct (Nat.lt_ge_cases i (length l)).
  - rewrite nth_error_app1 in H; auto.
  - rewrite nth_error_app2 in H by auto. destruct (i - length l)%nat eqn:E; simpl in H.
    + right. split; [lia|congruence].
    + destruct n; discriminate.
Qed.
Lemma mod_next n k : (0 < n)%nat -> ((k mod n + 1) mod n = (k + 1) mod n)%nat.
Proof. intros H. rewrite Nat.add_mod_idemp_l by lia. auto. Qed.

(** Only the time, the channels, the interleaver and the log matter. *)
Lemma cinv_frame nch d s s' : Cinv nch d s -> now s <= now s' -> nfree s' = nfree s -> inter s' = inter s ->
  log s' = log s -> Cinv nch d s'.
Proof.
  intros [A B C D E F G] H1 H2 H3 H4. constructor; rewrite ?H2, ?H3, ?H4; auto.
  intros v I. specialize (B v I). lia.
Qed.
Lemma request_cinv nch d r s : (0 < nch)%nat -> Cinv nch d s -> Cinv nch d (s_access_request nch d r s).
Proof.
  intros P [A B C D E F G]. unfold s_access_request.
  set (q := inter s). set (st := N.max (nfree s q) (now s)).
  constructor; simpl.
  - intros v I. apply in_app_iff in I. destruct I as [I|[<-|[]]]; simpl.
    + specialize (A v I). destruct (Nat.eq_dec (v_ch v) q) as [e|e].
      * rewrite e, setc_same. rewrite e in A. lia.
      * rewrite setc_other; auto.
    + rewrite setc_same. unfold vend. simpl. lia.
  - intros v I. apply in_app_iff in I. destruct I as [I|[<-|[]]]; simpl; auto. lia.
  - apply pairs_snoc; auto. apply Forall_forall. intros x I. simpl. split; auto.
    intros e. specialize (A x I). rewrite e in A. lia.
  - intros q'. destruct (Nat.eq_dec q' q) as [->|e].
    + right. eexists. split; [apply in_app_iff; right; left; reflexivity|]. simpl. split; auto.
      rewrite setc_same. reflexivity.
    + rewrite setc_other by auto. destruct (D q') as [Z|(v & I & Ev)]; auto.
      right. exists v. split; auto. apply in_app_iff; auto.
  - intros a v b H. apply snoc_split in H. destruct H as [(->&->&->)|(b'&->&H)]; [|eauto].
    simpl. split; [lia|]. destruct (N.le_gt_cases (nfree s q) (now s)); [left; lia|].
    right. destruct (D q) as [Z|(x & I & Ex & Eq)]; [lia|]. exists x. repeat split; auto. lia.
  - rewrite app_length. simpl. unfold q. rewrite F. apply mod_next. auto.
  - intros i v H. apply nth_snoc in H. destruct H as [H|(->&->)]; auto.
Qed.

(** * Flows *)
Definition info : Type := N * nat * N * N.
Definition finfo (f : sflow) : info := (s_t0 f, s_cb f, total (s_pieces f) + s_left f, s_rd f).
Definition rinfo (m : nat -> option sflow) (r : sreq) : list info :=
  match r with
  | SNic _ _ => []
  | SFlow k _ => match m k with Some f => [finfo f] | None => [] end
  end.
Definition einfo (m : nat -> option sflow) (e : N * sev) : list info :=
  match snd e with Issue r => rinfo m r | Resp r => rinfo m r | SCb _ f => [finfo f] end.
Definition rkey (r : sreq) : list nat := match r with SFlow k _ => [k] | SNic _ _ => [] end.
Definition ekey (e : N * sev) : list nat :=
  match snd e with Issue r => rkey r | Resp r => rkey r | SCb _ _ => [] end.

(** The pieces: first what is more than whole packets, then whole packets; what is left is whole packets. *)
Definition shape (mtu : N) (f : sflow) : Prop :=
  exists r m q, s_pieces f = r :: repeat mtu m /\ 0 < r <= mtu /\ s_left f = mtu * q.
Definition req_ok (mtu : N) (m : nat -> option sflow) (t : N) (r : sreq) : Prop :=
  match r with
  | SNic _ _ => True
  | SFlow k n => exists f, m k = Some f /\ shape mtu f /\ n = last (s_pieces f) 0 /\
                           s_t0 f + s_rd f * total (s_pieces f) <= t
  end.
(** A flow that is complete at [t]. *)
Definition complete (mtu d t : N) (id : nat) (f : sflow) : Prop :=
  id = s_cb f /\ s_left f = 0 /\ (s_pieces f = [] \/ shape mtu f) /\
  s_t0 f + s_rd f * total (s_pieces f) + d * last (s_pieces f) 0 <= t.
Definition sev_ok (mtu d : N) (m : nat -> option sflow) (e : N * sev) : Prop :=
  match snd e with
  | Issue r => req_ok mtu m (fst e) r /\ rkey r <> []
  | Resp r => req_ok mtu m (fst e) r
  | SCb id f => complete mtu d (fst e) id f
  end.
Record Sinv (mtu d : N) (subs : list info) (s : smem) : Prop := {
  j_subs : Permutation subs (map (fun x => finfo (snd x)) (fdone s) ++ flat_map (einfo (sflows s)) (sevs s));
  j_keys : NoDup (flat_map ekey (sevs s));
  j_live : forall k, sflows s k <> None -> In k (flat_map ekey (sevs s));
  j_next : forall k, sflows s k <> None -> (k < fnext s)%nat;
  j_ev : Forall (sev_ok mtu d (sflows s)) (sevs s);
  j_done : Forall (fun x => complete mtu d (fst (fst x)) (snd (fst x)) (snd x)) (fdone s) }.

Lemma einfo_setc m k v l : ~ In k (flat_map ekey l) -> flat_map (einfo (setc m k v)) l = flat_map (einfo m) l.
Proof.
  induction l as [|[t e] l IH]; simpl; intros H; auto. rewrite IH by (rewrite in_app_iff in H; tauto). f_equal.
  unfold einfo, ekey in *. simpl in *.
  destruct e as [[j n|]|[j n|]|]; simpl in *; auto; rewrite setc_other by (intros ->; tauto); auto.
Qed.
Lemma req_ok_setc mtu m t r k v : ~ In k (rkey r) -> req_ok mtu m t r -> req_ok mtu (setc m k v) t r.
Proof. destruct r; simpl; auto. intros H. rewrite setc_other by (intros ->; tauto). auto. Qed.
Lemma sev_ok_setc mtu d m k v l : ~ In k (flat_map ekey l) ->
  Forall (sev_ok mtu d m) l -> Forall (sev_ok mtu d (setc m k v)) l.
Proof.
  induction 2 as [|[t e] l He Hl IH]; constructor; simpl in H; rewrite in_app_iff in H.
  - unfold sev_ok, ekey in *. simpl in *. destruct e as [r|r|]; auto.
    + destruct He. split; auto. apply req_ok_setc; tauto.
    + apply req_ok_setc; tauto.
  - apply IH. tauto.
Qed.

(** The state without the event that is being executed. *)
Definition taken (t : N) (i : nat) (s : smem) : smem :=
  mksmem t (nfree s) (inter s) (fnext s) (sflows s) (firstn i (sevs s) ++ skipn (S i) (sevs s))
         (log s) (fdone s) (ndone s).
Definition sfire (nch : nat) (mtu d t : N) (e : sev) (s : smem) : option smem :=
  match e with
  | Issue r => Some (s_access_request nch d r s)
  | Resp r => s_response mtu d r s
  | SCb id f => Some (mksmem t (nfree s) (inter s) (fnext s) (sflows s) (sevs s) (log s)
                             (fdone s ++ [(t, id, f)]) (ndone s))
  end.
Lemma sstep_fire nch mtu d i s : sstep nch mtu d (SoFire i) s =
  match nth_error (sevs s) i with
  | None => None
  | Some (t, e) => if may t s then sfire nch mtu d t e (taken t i s) else None
  end.
Proof. reflexivity. Qed.

Lemma frame_sinv mtu d subs s t : Sinv mtu d subs s -> Sinv mtu d subs (at_time t s).
Proof. intros [A B C D E F]. constructor; auto. Qed.

Lemma last_snoc {A} (l : list A) x z : last (l ++ [x]) z = x.
Proof. induction l as [|y t IH]; simpl; auto. destruct (t ++ [x]) eqn:E; auto. destruct t; discriminate. Qed.
Lemma repeat_snoc {A} (x : A) k : repeat x k ++ [x] = repeat x (S k).
Proof. induction k; simpl; auto. f_equal. auto. Qed.

Lemma flow_sinv mtu d subs id size rd s : 0 < mtu -> Sinv mtu d subs s ->
  Sinv mtu d (subs ++ [(now s, id, size, rd)]) (s_access_flow mtu id size rd s).
Proof.
  intros M [A B C D E F]. unfold s_access_flow. destruct (N.eqb_spec size 0) as [->|Z].
  - constructor; simpl; rewrite ?flat_map_app; simpl; rewrite ?app_nil_r; auto.
    + rewrite A. perm.
    + apply Forall_app. split; auto. constructor; [|constructor]. unfold sev_ok, complete.
      cbn [snd fst s_cb s_left s_pieces s_t0 s_rd total last]. repeat split; auto. lia.
  - set (i := if size mod mtu =? 0 then mtu else size mod mtu).
    assert (Hi : 0 < i <= mtu /\ i <= size /\ exists q, size - i = mtu * q).
    { pose proof (N.div_mod size mtu ltac:(lia)) as DM. pose proof (N.mod_lt size mtu ltac:(lia)) as ML.
      unfold i. clear i. revert DM ML. generalize (size / mtu) (size mod mtu). intros a b DM ML.
      destruct (N.eqb_spec b 0) as [e|e].
      - subst b. assert (a <> 0) by (intros ->; lia).
        assert (Ha : a = 1 + (a - 1)) by lia. revert Ha DM. generalize (a - 1). intros q -> DM.
        rewrite N.mul_add_distr_l in DM. repeat split; try lia. exists q. lia.
      - repeat split; try lia. exists a. lia. }
    destruct Hi as (Hi & Hs & q & Hq).
    assert (NK : ~ In (fnext s) (flat_map ekey (sevs s))).
    { intros K. apply in_flat_map in K. destruct K as ([t e] & I & K). rewrite Forall_forall in E.
      specialize (E _ I). unfold sev_ok, ekey in *. simpl in *.
      assert (Q : forall r, req_ok mtu (sflows s) t r -> In (fnext s) (rkey r) -> False).
      { intros [k n|k n]; simpl; [|tauto]. intros (f & Ef & _) [->|[]].
        assert (fnext s < fnext s)%nat by (apply D; congruence). lia. }
      destruct e as [r|r|]; simpl in *; [destruct E| |]; eauto. }
    constructor; simpl.
    + rewrite A, flat_map_app, einfo_setc by auto. simpl. unfold einfo at 3. simpl. rewrite setc_same. simpl.
      unfold finfo at 3. simpl. replace (i + 0 + (size - i)) with size by lia. perm.
    + rewrite flat_map_app. simpl.
      apply (Permutation_NoDup (l := fnext s :: flat_map ekey (sevs s))).
      * apply Permutation_cons_append.
      * constructor; auto.
    + intros k Hk. rewrite flat_map_app, in_app_iff. simpl. destruct (Nat.eq_dec k (fnext s)) as [->|n]; auto.
      rewrite setc_other in Hk by auto. left. auto.
    + intros k Hk. destruct (Nat.eq_dec k (fnext s)) as [->|n]; [lia|].
      rewrite setc_other in Hk by auto. specialize (D k Hk). lia.
    + apply Forall_app. split; [apply sev_ok_setc; auto|]. constructor; [|constructor].
      unfold sev_ok. simpl. split; [|discriminate]. eexists. rewrite setc_same. split; [reflexivity|].
      simpl. split; [|split; [auto|lia]]. exists i, 0%nat, q. simpl. auto.
    + auto.
Qed.

Lemma nic_sinv nch mtu d subs id n s : Sinv mtu d subs s ->
  Sinv mtu d subs (s_access_request nch d (SNic id n) s).
Proof.
  intros [A B C D E F]. unfold s_access_request. constructor; simpl; rewrite ?flat_map_app; simpl; rewrite ?app_nil_r; auto.
  apply Forall_app. split; auto. constructor; [|constructor]. unfold sev_ok. simpl. auto.
Qed.

Lemma rotate {A} (a b d : list A) : Permutation (a ++ b ++ d) (b ++ d ++ a).
Proof. rewrite (app_assoc b). apply Permutation_app_comm. Qed.
Lemma fire_sinv nch mtu d subs s i t e s' : 0 < mtu -> nth_error (sevs s) i = Some (t, e) ->
  Sinv mtu d subs s -> sfire nch mtu d t e (taken t i s) = Some s' -> Sinv mtu d subs s'.
Proof.
  intros M H [A B C D E F] S. pose proof (remove_perm _ _ _ H) as R.
  assert (A' : Permutation subs (einfo (sflows s) (t, e) ++ map (fun x => finfo (snd x)) (fdone s)
                 ++ flat_map (einfo (sflows s)) (sevs (taken t i s)))).
  { rewrite A, (Permutation_flat_map _ R). simpl. apply Permutation_app_swap_app. }
  assert (B' : NoDup (ekey (t, e) ++ flat_map ekey (sevs (taken t i s)))).
  { apply (Permutation_NoDup (Permutation_flat_map ekey R)) in B. auto. }
  assert (C' : forall k, sflows s k <> None -> In k (ekey (t, e) ++ flat_map ekey (sevs (taken t i s)))).
  { intros k K. apply (Permutation_in _ (Permutation_flat_map ekey R)). auto. }
  assert (E' : sev_ok mtu d (sflows s) (t, e) /\ Forall (sev_ok mtu d (sflows s)) (sevs (taken t i s))).
  { apply (Permutation_Forall R) in E. inversion E; auto. }
  clear A B C E R H. destruct E' as [Ee E'].
  destruct e as [r|r|id f]; unfold sfire in S.
  - inversion S; subst. clear S. unfold s_access_request. unfold sev_ok in Ee. simpl in Ee. destruct Ee as [Er Ek].
    constructor; cbn [now fdone sflows sevs fnext taken]; auto.
    + rewrite A', flat_map_app. cbn [flat_map]. rewrite app_nil_r. apply rotate.
    + rewrite flat_map_app. simpl flat_map at 2. rewrite app_nil_r.
      apply (Permutation_NoDup (Permutation_app_comm _ _)). exact B'.
    + intros k K. specialize (C' k K). rewrite flat_map_app. simpl flat_map at 2. rewrite app_nil_r.
      rewrite in_app_iff in *. unfold ekey in *. simpl in *. tauto.
    + apply Forall_app. split; auto. constructor; [|constructor]. unfold sev_ok. cbn [fst snd].
      destruct r; simpl in *; auto. destruct Er as (f & ? & ? & ? & ?). exists f. repeat split; auto. lia.
  - unfold sev_ok in Ee. cbn [snd fst] in Ee. destruct r as [k n|k n]; simpl in S.
    + destruct Ee as (f & Ef & Sh & En & T). cbn [sflows] in S. rewrite Ef in S.
      unfold einfo in A' at 1. cbn [snd rinfo] in A'. rewrite Ef in A'.
      assert (NK : ~ In k (flat_map ekey (sevs (taken t i s)))).
      { simpl in B'. inversion B'; auto. }
      assert (B2 : NoDup (flat_map ekey (sevs (taken t i s)))) by (simpl in B'; inversion B'; auto).
      assert (C2 : forall k', k' <> k -> sflows s k' <> None -> In k' (flat_map ekey (sevs (taken t i s)))).
      { intros k' N K. specialize (C' k' K). rewrite in_app_iff in C'. unfold ekey in C' at 1. simpl in C'. 
        destruct C' as [[C'|[]]|C']; [congruence|auto]. }
      clear B' C'.
      fold (taken t i s) in S. change (sevs (taken t i s)) with (sevs (taken t i s)) in *.
      destruct (N.eqb_spec (s_left f) 0) as [L|L]; inversion S; subst s'; clear S.
      * constructor; cbn [now fdone sflows sevs fnext].
        -- rewrite A', flat_map_app, einfo_setc by auto. cbn [flat_map einfo snd].
           apply (rotate [finfo f]).
        -- rewrite flat_map_app. simpl flat_map at 2. rewrite app_nil_r. auto.
        -- intros k' K. rewrite flat_map_app, in_app_iff. left. destruct (Nat.eq_dec k' k) as [->|N].
           ++ rewrite setc_same in K. congruence.
           ++ rewrite setc_other in K by auto. auto.
        -- intros k' K. destruct (Nat.eq_dec k' k) as [->|N].
           ++ rewrite setc_same in K. congruence.
           ++ rewrite setc_other in K by auto. auto.
        -- apply Forall_app. split; [apply sev_ok_setc; auto|]. constructor; [|constructor].
           unfold sev_ok, complete. cbn [fst snd]. repeat split; auto. subst n. nia.
        -- auto.
      * constructor; cbn [now fdone sflows sevs fnext].
        -- rewrite A', flat_map_app, einfo_setc by auto. cbn [flat_map einfo snd rinfo]. rewrite setc_same.
           replace (finfo (mksflow (s_cb f) (s_left f - mtu) (s_rd f) (s_t0 f) (s_pieces f ++ [mtu])))
             with (finfo f).
           ++ apply (rotate [finfo f]).
           ++ destruct Sh as (r & m & q & _ & _ & Q). unfold finfo. simpl. rewrite total_app. simpl.
              assert (mtu <= s_left f) by (rewrite Q in *; destruct q; [lia|nia]). f_equal. f_equal. lia.
        -- rewrite flat_map_app. simpl flat_map at 2.
           apply (Permutation_NoDup (Permutation_cons_append _ _)). constructor; auto.
        -- intros k' K. rewrite flat_map_app, in_app_iff. simpl flat_map at 2. destruct (Nat.eq_dec k' k) as [->|N].
           ++ right. left. auto.
           ++ rewrite setc_other in K by auto. auto.
        -- intros k' K. destruct (Nat.eq_dec k' k) as [->|N].
           ++ apply D. congruence.
           ++ rewrite setc_other in K by auto. auto.
        -- apply Forall_app. split; [apply sev_ok_setc; auto|]. constructor; [|constructor].
           unfold sev_ok. cbn [fst snd req_ok]. split; [|discriminate]. eexists. rewrite setc_same. split; [reflexivity|].
           cbn [s_pieces s_t0 s_rd]. split; [|split].
           ++ destruct Sh as (r & m & q & Ep & Hr & Q). exists r, (S m), (q - 1). simpl s_pieces. simpl s_left.
              rewrite Ep. simpl app. rewrite repeat_snoc. repeat split; auto; try lia.
              rewrite Q in *. destruct q; [lia|]. nia.
           ++ rewrite last_snoc. auto.
           ++ rewrite total_app. simpl total. nia.
        -- auto.
    + inversion S; subst. constructor; cbn [now fdone sflows sevs fnext taken]; auto.
  - inversion S; subst. constructor; cbn [now fdone sflows sevs fnext taken]; auto.
    + rewrite A', map_app, <- app_assoc.
      apply (Permutation_app_swap_app [finfo f]).
    + apply Forall_app. split; auto.
Qed.

(** What the operations ask for. *)
Definition sub_of (o : sop) : list info :=
  match o with SoFlow t id n rd => [(t, id, n, rd)] | _ => [] end.
Lemma sstep_sinv nch mtu d subs o s s' : 0 < mtu -> Sinv mtu d subs s -> sstep nch mtu d o s = Some s' ->
  Sinv mtu d (subs ++ sub_of o) s'.
Proof.
  intros M I H. destruct o as [t id n rd|t id n|i].
  - simpl in H. destruct (may t s); inversion H; subst.
    apply (flow_sinv mtu d subs id n rd (at_time t s)); auto. apply frame_sinv. auto.
  - simpl in H. destruct (may t s); inversion H; subst. simpl. rewrite app_nil_r.
    apply nic_sinv. apply frame_sinv. auto.
  - rewrite sstep_fire in H. simpl. rewrite app_nil_r. destruct (nth_error (sevs s) i) as [[t e]|] eqn:E; [|discriminate].
    destruct (may t s); [|discriminate]. eapply fire_sinv; eauto.
Qed.
Lemma srun_sinv nch mtu d l : 0 < mtu -> forall subs s s', Sinv mtu d subs s -> srun nch mtu d l s = Some s' ->
  Sinv mtu d (subs ++ flat_map sub_of l) s'.
Proof.
  intros M. induction l as [|o t IH]; simpl; intros subs s s' I H.
  - inversion H; subst. rewrite app_nil_r. auto.
  - destruct (sstep nch mtu d o s) as [s1|] eqn:E; [|discriminate]. rewrite app_assoc.
    apply (IH _ s1); auto. eapply sstep_sinv; eauto.
Qed.
Lemma sm0_sinv mtu d : Sinv mtu d [] sm0.
Proof. constructor; simpl; auto; try constructor; intros; congruence. Qed.

(** The channels. *)
Lemma may_now t s : may t s = true -> now s <= t.
Proof. unfold may. rewrite andb_true_iff, N.leb_le. tauto. Qed.
Lemma sstep_cinv nch mtu d o s s' : (0 < nch)%nat -> Cinv nch d s -> sstep nch mtu d o s = Some s' -> Cinv nch d s'.
Proof.
  intros P I H. destruct o as [t id n rd|t id n|i].
  - simpl in H. destruct (may t s) eqn:Y; inversion H; subst. apply may_now in Y.
    apply (cinv_frame nch d s); auto; unfold s_access_flow; destruct (n =? 0); simpl; auto.
  - simpl in H. destruct (may t s) eqn:Y; inversion H; subst. apply may_now in Y.
    apply request_cinv; auto. apply (cinv_frame nch d s); auto.
  - rewrite sstep_fire in H. destruct (nth_error (sevs s) i) as [[t e]|] eqn:E; [|discriminate].
    destruct (may t s) eqn:Y; [|discriminate]. apply may_now in Y.
    assert (J : Cinv nch d (taken t i s)) by (apply (cinv_frame nch d s); auto).
    destruct e as [r|r|id f]; unfold sfire in H.
    + inversion H; subst. apply request_cinv; auto.
    + unfold s_response in H. destruct r as [k n|k n].
      * destruct (sflows (taken t i s) k) as [f|]; [|discriminate].
        destruct (s_left f =? 0); inversion H; subst; apply (cinv_frame nch d (taken t i s)); simpl; auto; lia.
      * inversion H; subst. apply (cinv_frame nch d (taken t i s)); simpl; auto; lia.
    + inversion H; subst. apply (cinv_frame nch d (taken t i s)); simpl; auto; lia.
Qed.
Lemma srun_cinv nch mtu d l : (0 < nch)%nat -> forall s s', Cinv nch d s -> srun nch mtu d l s = Some s' -> Cinv nch d s'.
Proof.
  intros P. induction l as [|o t IH]; simpl; intros s s' I H.
  - inversion H; subst. auto.
  - destruct (sstep nch mtu d o s) as [s1|] eqn:E; [|discriminate].
    apply (IH s1); auto. eapply sstep_cinv; eauto.
Qed.
Lemma sm0_cinv nch d : (0 < nch)%nat -> Cinv nch d sm0.
Proof.
  intros P. constructor; simpl.
  - tauto.
  - tauto.
  - constructor.
  - auto.
  - intros a v b H. destruct a; discriminate.
  - rewrite Nat.mod_small; auto.
  - intros i v H. destruct i; discriminate.
Qed.

(** The responses: each served request is answered when its head is there. *)
Definition nic_served (v : served) : list (N * nat * N) :=
  match v_req v with SNic id n => [(v_start v, id, n)] | SFlow _ _ => [] end.
Definition nic_event (e : N * sev) : list (N * nat * N) :=
  match snd e with Resp (SNic id n) => [(fst e, id, n)] | _ => [] end.
Definition Ninv (subs : list (nat * N)) (s : smem) : Prop :=
  Permutation (flat_map nic_served (log s)) (ndone s ++ flat_map nic_event (sevs s)) /\
  map (fun x => (snd (fst x), snd x)) (flat_map nic_served (log s)) = subs.
Definition nic_of (o : sop) : list (nat * N) := match o with SoNic _ id n => [(id, n)] | _ => [] end.
Lemma sstep_ninv nch mtu d fs subs o s s' : Sinv mtu d fs s -> Ninv subs s -> sstep nch mtu d o s = Some s' ->
  Ninv (subs ++ nic_of o) s'.
Proof.
  intros I [A B] H. destruct o as [t id n rd|t id n|i].
  - simpl in H. destruct (may t s); inversion H; subst. simpl. rewrite app_nil_r. 
    unfold Ninv, s_access_flow. destruct (n =? 0); simpl; rewrite flat_map_app; simpl; rewrite app_nil_r; auto.
  - simpl in H. destruct (may t s); inversion H; subst. unfold Ninv. simpl.
    rewrite !flat_map_app, map_app. simpl. split; auto. rewrite A, app_assoc. reflexivity.
  - rewrite sstep_fire in H. simpl nic_of. rewrite app_nil_r. destruct (nth_error (sevs s) i) as [[t e]|] eqn:E; [|discriminate].
    destruct (may t s); [|discriminate]. pose proof (remove_perm _ _ _ E) as R.
    pose proof (j_ev _ _ _ _ I) as Ok. apply (Permutation_Forall R) in Ok. inversion Ok as [|? ? Oe _]; subst.
    rewrite (Permutation_flat_map nic_event R) in A. cbn [flat_map] in A.
    change (firstn i (sevs s) ++ skipn (S i) (sevs s)) with (sevs (taken t i s)) in A.
    destruct e as [r|r|id f]; unfold sfire in H.
    + inversion H; subst. unfold Ninv, s_access_request. cbn [log ndone sevs].
      destruct Oe as [_ Oe]. cbn [snd] in Oe. destruct r as [k n|k n]; [|simpl in Oe; congruence].
      rewrite !flat_map_app. unfold nic_served at 2 4. unfold nic_event at 2. simpl flat_map at 2 4 5.
      rewrite !app_nil_r. split; auto.
    + unfold s_response in H. destruct r as [k n|k n].
      * destruct (sflows (taken t i s) k) as [f|]; [|discriminate].
        destruct (s_left f =? 0); inversion H; subst; unfold Ninv; cbn [log ndone sevs];
        rewrite flat_map_app; unfold nic_event at 2; simpl flat_map at 3; rewrite app_nil_r; split; auto.
      * inversion H; subst. unfold Ninv. cbn [log ndone sevs]. split; auto. rewrite A. unfold nic_event at 1. cbn [snd fst].
        rewrite <- app_assoc. auto.
    + inversion H; subst. unfold Ninv. cbn [log ndone sevs]. split; auto.
Qed.
Lemma srun_ninv nch mtu d l : 0 < mtu -> forall fs subs s s', Sinv mtu d fs s -> Ninv subs s ->
  srun nch mtu d l s = Some s' -> Ninv (subs ++ flat_map nic_of l) s'.
Proof.
  intros M. induction l as [|o t IH]; simpl; intros fs subs s s' I J H.
  - inversion H; subst. rewrite app_nil_r. auto.
  - destruct (sstep nch mtu d o s) as [s1|] eqn:E; [|discriminate]. rewrite app_assoc.
    apply (IH (fs ++ sub_of o) _ s1); auto; [eapply sstep_sinv; eauto|eapply sstep_ninv; eauto].
Qed.

(** The number of events for a flow: for each packet its issue and its response, and the callback. *)
Definition fcost (mtu size : N) : N := 2 * ceil mtu size + 1.
Definition left_cost (mtu : N) (m : nat -> option sflow) (r : sreq) : N :=
  match r with
  | SNic _ _ => 1
  | SFlow k _ => match m k with Some f => 2 + 2 * (s_left f / mtu) | None => 0 end
  end.
Definition sev_cost (mtu : N) (m : nat -> option sflow) (e : N * sev) : N :=
  match snd e with Issue r => 1 + left_cost mtu m r | Resp r => left_cost mtu m r | SCb _ _ => 1 end.
Definition spot (mtu : N) (s : smem) : N := total (map (sev_cost mtu (sflows s)) (sevs s)).
Definition sop_cost (mtu : N) (o : sop) : N :=
  match o with SoFlow _ _ n _ => fcost mtu n | SoNic _ _ _ => 1 | SoFire _ => 0 end.
Definition sop_fire (o : sop) : N := match o with SoFire _ => 1 | _ => 0 end.

Lemma sev_cost_setc mtu m k v l : ~ In k (flat_map ekey l) ->
  map (sev_cost mtu (setc m k v)) l = map (sev_cost mtu m) l.
Proof.
  induction l as [|[t e] l IH]; simpl; intros H; auto. rewrite IH by (rewrite in_app_iff in H; tauto). f_equal.
  unfold sev_cost, ekey in *. simpl in *.
  destruct e as [[j n|]|[j n|]|]; simpl in *; auto; rewrite setc_other by (intros ->; tauto); auto.
Qed.
Lemma no_key mtu d subs s : Sinv mtu d subs s -> ~ In (fnext s) (flat_map ekey (sevs s)).
Proof.
  intros [A B C D E F] K. apply in_flat_map in K. destruct K as ([t e] & I & K). rewrite Forall_forall in E.
  specialize (E _ I). unfold sev_ok, ekey in *. simpl in *.
  assert (Q : forall r, req_ok mtu (sflows s) t r -> In (fnext s) (rkey r) -> False).
  { intros [k n|k n]; simpl; [|tauto]. intros (f & Ef & _) [->|[]].
    assert (fnext s < fnext s)%nat by (apply D; congruence). lia. }
  destruct e as [r|r|]; simpl in *; [destruct E| |]; eauto.
Qed.
Lemma ceil_first mtu size : 0 < mtu -> 0 < size ->
  let i := if size mod mtu =? 0 then mtu else size mod mtu in
  1 + (size - i) / mtu = ceil mtu size.
Proof.
  intros M S. unfold ceil. pose proof (N.div_mod size mtu ltac:(lia)) as DM.
  pose proof (N.mod_lt size mtu ltac:(lia)) as ML. revert DM ML.
  generalize (size / mtu) (size mod mtu). intros a b DM ML. cbn zeta.
  destruct (N.eqb_spec b 0) as [->|e].
  - assert (a <> 0) by (intros ->; lia). assert (Ha : a = 1 + (a - 1)) by lia. revert Ha DM.
    generalize (a - 1). intros q -> DM. rewrite N.mul_add_distr_l in DM.
    replace (size - mtu) with (q * mtu) by lia. rewrite N.div_mul by lia.
    replace (size + (mtu - 1)) with ((1 + q) * mtu + (mtu - 1)) by lia.
    rewrite N.div_add_l by lia. rewrite N.div_small by lia. lia.
  - replace (size - b) with (a * mtu) by lia. rewrite N.div_mul by lia.
    replace (size + (mtu - 1)) with ((1 + a) * mtu + (b - 1)) by lia.
    rewrite N.div_add_l by lia. rewrite N.div_small by lia. lia.
Qed.

Lemma some_inj {A} (a b : A) : Some a = Some b -> a = b.
Proof. congruence. Qed.
Lemma sstep_pot nch mtu d subs o s s' : 0 < mtu -> Sinv mtu d subs s -> sstep nch mtu d o s = Some s' ->
  sop_fire o + spot mtu s' = spot mtu s + sop_cost mtu o.
Proof.
  intros M I H. destruct o as [t id n rd|t id n|i].
  - simpl in H. destruct (may t s); inversion H; subst. unfold s_access_flow, spot.
    destruct (N.eqb_spec n 0) as [->|Z]; cbn [sevs sflows sop_fire sop_cost at_time].
    + rewrite map_app, total_app. cbn [map total sev_cost snd]. unfold fcost. rewrite ceil_0 by auto. lia.
    + rewrite map_app, total_app, sev_cost_setc by (apply (no_key mtu d subs s); auto).
      unfold sev_cost at 2. cbn [map total snd left_cost at_time fnext]. rewrite setc_same. cbn [s_left].
      unfold fcost. rewrite <- (ceil_first mtu n) by lia. cbn zeta. lia.
  - simpl in H. destruct (may t s); inversion H; subst. unfold s_access_request, spot.
    cbn [sevs sflows sop_fire sop_cost at_time]. rewrite map_app, total_app. simpl. unfold sev_cost at 2. simpl. lia.
  - rewrite sstep_fire in H. destruct (nth_error (sevs s) i) as [[t e]|] eqn:E; [|discriminate].
    destruct (may t s); [|discriminate]. pose proof (remove_perm _ _ _ E) as R. cbn [sop_fire sop_cost].
    assert (P : spot mtu s = sev_cost mtu (sflows s) (t, e) + spot mtu (taken t i s)).
    { unfold spot. rewrite (total_perm _ _ (Permutation_map _ R)). reflexivity. }
    pose proof (Permutation_NoDup (Permutation_flat_map ekey R) (j_keys _ _ _ _ I)) as ND. cbn [flat_map] in ND.
    pose proof (j_ev _ _ _ _ I) as Ok. apply (Permutation_Forall R) in Ok. inversion Ok as [|? ? Oe _]; subst.
    rewrite P. clear P. destruct e as [r|r|id f]; unfold sfire in H.
    + apply some_inj in H; subst s'. unfold s_access_request, spot. cbn [sevs sflows]. rewrite map_app, total_app.
      cbn [map total]. unfold sev_cost at 2 3. cbn [snd]. change (sflows (taken t i s)) with (sflows s). lia.
    + unfold s_response in H. destruct r as [k n|k n].
      * change (sflows (taken t i s)) with (sflows s) in H.
        unfold sev_ok in Oe. cbn [snd fst req_ok] in Oe. destruct Oe as (f & Ef & Sh & _). rewrite Ef in H.
        assert (NK : ~ In k (flat_map ekey (sevs (taken t i s)))).
        { change (flat_map ekey (sevs (taken t i s))) with (flat_map ekey (firstn i (sevs s) ++ skipn (S i) (sevs s))).
          unfold ekey at 1 in ND. simpl app in ND. inversion ND; auto. }
        unfold sev_cost at 1. cbn [snd left_cost]. rewrite Ef.
        destruct (N.eqb_spec (s_left f) 0) as [L|L]; apply some_inj in H; subst s'; unfold spot; cbn [sevs sflows];
          rewrite map_app, total_app, sev_cost_setc by auto; unfold sev_cost at 2; cbn [map total snd left_cost];
          change (sflows (taken t i s)) with (sflows s).
        -- rewrite L. rewrite N.div_0_l by lia. lia.
        -- rewrite setc_same. cbn [s_left]. destruct Sh as (r & m & q & _ & _ & Q).
           rewrite Q in *. assert (q <> 0) by (intros ->; lia). assert (Ha : q = 1 + (q - 1)) by lia. revert Ha.
           generalize (q - 1). intros q' ->. replace (mtu * (1 + q') - mtu) with (q' * mtu) by lia.
           replace (mtu * (1 + q')) with ((1 + q') * mtu) by lia. rewrite !N.div_mul by lia. lia.
      * apply some_inj in H; subst s'. unfold spot. cbn [sevs sflows]. unfold sev_cost at 2. cbn [snd left_cost]. lia.
    + apply some_inj in H; subst s'. unfold spot. cbn [sevs sflows]. unfold sev_cost at 2. cbn [snd]. lia.
Qed.
Lemma srun_pot nch mtu d l : 0 < mtu -> forall subs s s', Sinv mtu d subs s -> srun nch mtu d l s = Some s' ->
  total (map sop_fire l) + spot mtu s' = spot mtu s + total (map (sop_cost mtu) l).
Proof.
  intros M. induction l as [|o t IH]; simpl; intros subs s s' I H.
  - inversion H; subst. lia.
  - destruct (sstep nch mtu d o s) as [s1|] eqn:E; [|discriminate].
    pose proof (sstep_pot _ _ _ _ _ _ _ M I E) as P1.
    pose proof (IH _ s1 s' (sstep_sinv _ _ _ _ _ _ _ M I E) H) as P2. lia.
Qed.

(** The next event can be executed. *)
Lemma min_event (l : list (N * sev)) : l <> [] ->
  exists i t e, nth_error l i = Some (t, e) /\ forallb (fun x => t <=? fst x) l = true.
Proof.
  induction l as [|[t e] l IH]; [congruence|]. intros _. destruct l as [|y l].
  - exists 0%nat, t, e. simpl. split; auto. rewrite N.leb_refl. auto.
  - destruct (IH ltac:(discriminate)) as (i & t' & e' & H & F). destruct (N.le_gt_cases t t').
    + exists 0%nat, t, e. split; auto.
      apply forallb_forall. intros x [<-|Ix]; apply N.leb_le; simpl; [lia|].
      rewrite forallb_forall in F. specialize (F x Ix). apply N.leb_le in F. lia.
    + exists (S i), t', e'. split; auto. change (((t' <=? t) && forallb (fun x => t' <=? fst x) (y :: l)) = true).
      apply andb_true_iff. split; auto. apply N.leb_le. lia.
Qed.
Definition late_events (s : smem) : Prop := Forall (fun e => now s <= fst e) (sevs s).
Lemma sstep_late nch mtu d o s s' : late_events s -> sstep nch mtu d o s = Some s' -> late_events s'.
Proof.
  unfold late_events. intros L H. destruct o as [t id n rd|t id n|i].
  - simpl in H. destruct (may t s) eqn:Y; inversion H; subst. unfold may in Y. apply andb_true_iff in Y. destruct Y as [_ Y].
    assert (Forall (fun e => t <= fst e) (sevs s)).
    { apply Forall_forall. intros x I. rewrite forallb_forall in Y. apply N.leb_le. auto. }
    unfold s_access_flow. destruct (n =? 0); simpl; apply Forall_app; split; auto; constructor; auto; simpl; lia.
  - simpl in H. destruct (may t s) eqn:Y; inversion H; subst. unfold may in Y. apply andb_true_iff in Y. destruct Y as [_ Y].
    assert (Forall (fun e => t <= fst e) (sevs s)).
    { apply Forall_forall. intros x I. rewrite forallb_forall in Y. apply N.leb_le. auto. }
    simpl; apply Forall_app; split; auto; constructor; auto; simpl; lia.
  - rewrite sstep_fire in H. destruct (nth_error (sevs s) i) as [[t e]|] eqn:E; [|discriminate].
    destruct (may t s) eqn:Y; [|discriminate]. unfold may in Y. apply andb_true_iff in Y. destruct Y as [_ Y].
    assert (F : Forall (fun e => t <= fst e) (sevs (taken t i s))).
    { pose proof (remove_perm _ _ _ E) as R.
      assert (Forall (fun e => t <= fst e) (sevs s)).
      { apply Forall_forall. intros x I. rewrite forallb_forall in Y. apply N.leb_le. auto. }
      apply (Permutation_Forall R) in H0. inversion H0; auto. }
    destruct e as [r|r|id f]; unfold sfire in H.
    + inversion H; subst. simpl. apply Forall_app; split; auto; constructor; auto; simpl; lia.
    + unfold s_response in H. destruct r as [k n|k n].
      * destruct (sflows (taken t i s) k) as [f|]; [|discriminate].
        destruct (s_left f =? 0); inversion H; subst; cbn [sevs now]; apply Forall_app; split; auto;
          constructor; auto; cbn [fst taken now]; lia.
      * inversion H; subst. auto.
    + inversion H; subst. auto.
Qed.
Lemma srun_late nch mtu d l : forall s s', late_events s -> srun nch mtu d l s = Some s' -> late_events s'.
Proof.
  induction l as [|o t IH]; simpl; intros s s' I H.
  - inversion H; subst. auto.
  - destruct (sstep nch mtu d o s) as [s1|] eqn:E; [|discriminate]. apply (IH s1); auto. eapply sstep_late; eauto.
Qed.
Lemma progress nch mtu d subs s : Sinv mtu d subs s -> late_events s -> sevs s <> [] ->
  exists i s', sstep nch mtu d (SoFire i) s = Some s'.
Proof.
  intros I L N. destruct (min_event _ N) as (i & t & e & H & F). exists i. rewrite sstep_fire, H.
  unfold may. rewrite F. assert (K : now s <= t).
  { unfold late_events in L. rewrite Forall_forall in L. apply (L (t, e)). eapply nth_error_In; eauto. }
  apply N.leb_le in K. rewrite K. simpl andb. cbn iota.
  pose proof (j_ev _ _ _ _ I) as Ok. rewrite Forall_forall in Ok. specialize (Ok _ (nth_error_In _ _ H)).
  destruct e as [r|r|id f]; unfold sfire; eauto.
  unfold s_response. destruct r as [k n|k n]; eauto. unfold sev_ok in Ok. cbn [snd req_ok] in Ok.
  destruct Ok as (f & Ef & _). change (sflows (taken t i s)) with (sflows s). rewrite Ef.
  destruct (s_left f =? 0); eauto.
Qed.
