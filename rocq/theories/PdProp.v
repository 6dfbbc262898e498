(** Properties of MPI point-to-point messages with their data: what arrives, when
    operations are complete, and what happens to memory. *)
From Coq Require Import List ZArith Bool Arith Lia Permutation.
From Verif Require Import DtModel DtSpec DtProof PdModel PdSpec PdHeap PdInv PdMove PdRun PdSettle PdLeak PdExec.
Import ListNotations.
Local Open Scope Z_scope.

(** ** Example programs *)

(** Eager0 up to 4 bytes, Eager1 up to 8, then rendezvous *)
Definition cfg (soft : bool) : pcfg := {| c_vshort := 4; c_eager := 8; c_soft := soft; c_junk := fun _ _ => -7 |}.
Definition mem0 : nat -> mem Z := fun b x => Z.of_nat b * 1000 + x.
Definition vec : dt := DVec 2 1 3 (DPrim 1).
Definition ex_types (d : dt) : bool := match d with DPrim _ => true | DVec _ 1 _ (DPrim _) => true | _ => false end.
Lemma ex_types_ok : forall d, ex_types d = true -> blocks_pos d.
Proof. intros [k| |c [|[|b]] st [k| | | | | |]| | | |] E; try discriminate; cbn; auto. Qed.
(** A receive into buffer 1 is posted, buffer 0 is sent, overwritten once that is allowed,
    and the message is matched. *)
Definition one_message (d : dt) (n : nat) (pa : path) (eager : bool) : list act :=
  [APost 1 d n; ASend 0 d n pa] ++ (if eager then [AWrite 0 0 (-1)] else []) ++ [ARest 50; AMatch 0 0; ARest 50; AWrite 0 1 (-2)].
Definition ends (soft : bool) (l : list act) (ok : list pobs -> pst -> bool) : bool :=
  match exec (cfg soft) l ([], pst0 mem0) with
  | Some (h, s) => obeysb h && typesb ex_types h && fitsb h && ok h s
  | None => false
  end.
Lemma ends_run : forall soft l ok, ends soft l ok = true ->
  exists h s, prun (cfg soft) mem0 h s /\ rules h /\ ok h s = true.
Proof.
  intros soft l ok E. unfold ends in E. destruct (exec (cfg soft) l ([], pst0 mem0)) as [(h, s)|] eqn:X; [|discriminate].
  apply andb_prop in E. destruct E as (E & F). exists h, s. split; [eapply exec_run; [constructor|exact X]|].
  split; [exact (rules_ok ex_types h ex_types_ok E)|exact F].
Qed.
Definition all_done (h : list pobs) (s : pst) : bool :=
  match s_items s, s_posted s, s_recvs s, s_sends s with [], [], [], [] => sdone 0 h && rdone 0 h | _, _, _, _ => false end.
Definition zs_eqb (a b : list Z) : bool := if list_eq_dec Z.eq_dec a b then true else false.
Definition bytes (b : nat) (xs : list Z) (s : pst) : list Z := map (hp_user (s_hp s) b) xs.

(** ** C108: the data *)

(** Whatever the order in which messages move and are matched, a complete receive has put
    into its buffer exactly what was in the buffer of the matched send when it was called,
    and has left the other bytes alone. *)
Theorem pt2pt_data : forall c user h s r f out, prun c user h s -> rules h -> In (ORecvDone r f out) h ->
  exists b1 d1 n1 src b2 d2 n2 dst, In (OSend f b1 d1 n1 src) h /\ In (ORecv r b2 d2 n2 dst) h /\
    In (OMatch r f) h /\ received d1 n1 src d2 dst out.
Proof.
  intros c user h s r f out R RU D. destruct (run_inv c user h s R RU) as [_ L [DD _]].
  destruct (DD _ _ _ D) as (b1 & d1 & n1 & src & b2 & d2 & n2 & dst & A & B & C).
  exists b1, d1, n1, src, b2, d2, n2, dst. split; [exact A|]. split; [exact B|]. split; [|exact C].
  exact (l_done _ _ _ _ _ _ _ _ L _ _ _ D).
Qed.
Print Assumptions pt2pt_data.

(** A buffer without a pending receive contains what the program wrote and what completed
    receives left in it: nothing else writes it. *)
Theorem pt2pt_untouched : forall c user h s b, prun c user h s -> rules h -> ~ receiving b h ->
  forall x, hp_user (s_hp s) b x = replay user h b x.
Proof. intros c user h s b R RU N. exact (d_replay _ _ _ (i_d _ _ _ _ (run_inv c user h s R RU)) b N). Qed.
Print Assumptions pt2pt_untouched.

Lemma in_run : forall n x, In (x, x) (run n 0 0) <-> 0 <= x < Z.of_nat n.
Proof.
  intros n x. unfold run. rewrite in_map_iff. split.
  - intros (i & E & I). unfold zseq in I. apply in_map_iff in I. destruct I as (k & <- & I). apply in_seq in I. injection E as E _. lia.
  - intros B. exists x. split; [f_equal; lia|]. unfold zseq. apply in_map_iff. exists (Z.to_nat x). split; [lia|]. apply in_seq. lia.
Qed.

Lemma packed_contig : forall d n src pk, mcontig (build d) = true -> packed_as d n src pk ->
  forall x, 0 <= x < size_of d n -> pk x = src x.
Proof.
  intros d n src pk C (junk & P) x B. rewrite P by exact B. unfold bytes_moved. rewrite C.
  apply pack_with_in.
  - rewrite run_fst. apply shift_nodup. unfold zseq. apply FinFun.Injective_map_NoDup; [intros a b E; lia|apply seq_NoDup].
  - apply in_run. exact B.
Qed.

(** For contiguous types the receive puts the bytes of the message at the start. *)
Theorem pt2pt_contiguous : forall c user h s r f out b1 d1 n1 src b2 d2 n2 dst, prun c user h s -> rules h ->
  In (ORecvDone r f out) h -> In (OSend f b1 d1 n1 src) h -> In (ORecv r b2 d2 n2 dst) h ->
  mcontig (build d1) = true -> mcontig (build d2) = true ->
  forall x, out x = if (0 <=? x) && (x <? size_of d1 n1) then src x else dst x.
Proof.
  intros c user h s r f out b1 d1 n1 src b2 d2 n2 dst R RU D S Q C1 C2 x.
  destruct (pt2pt_data _ _ _ _ _ _ _ R RU D) as (b1' & d1' & n1' & src' & b2' & d2' & n2' & dst' & S' & Q' & _ & pk & P & E).
  destruct (run_inv c user h s R RU) as [_ L _].
  destruct (l_fl1 _ _ _ _ _ _ _ _ L _ _ _ _ _ _ _ _ _ S S') as (<- & <- & <- & <-).
  destruct (l_rq1 _ _ _ _ _ _ _ _ L _ _ _ _ _ _ _ _ _ Q Q') as (<- & <- & <- & <-).
  rewrite E, C2. destruct (Z.leb_spec 0 x), (Z.ltb_spec x (size_of d1 n1)); cbn [andb]; auto.
  apply (packed_contig d1 n1 src pk C1 P). lia.
Qed.
Print Assumptions pt2pt_contiguous.

Lemma received_same : forall d n src dst out, blocks_pos d -> received d n src d dst out ->
  forall x, (In x (map snd (bytes_moved (build d) n)) -> out x = src x) /\ (~ In x (map snd (bytes_moved (build d) n)) -> out x = dst x).
Proof.
  intros d n src dst out B (pk & P & E) x. destruct (bytes_range (build d) n (build_wf d B)) as (ND & RG).
  unfold bytes_moved in ND, RG |- *. rewrite E. destruct (mcontig (build d)) eqn:C.
  - assert (IFF : In x (map snd (run (n * msize (build d)) 0 0)) <-> 0 <= x < size_of d n).
    { unfold size_of. rewrite <- in_run, in_map_iff. split.
      - intros ((a, b) & <- & I). cbn. unfold run in *. rewrite in_map_iff in *. destruct I as (i & J & I). exists i. injection J as <- <-. auto.
      - intros I. exists (x, x). auto. }
    rewrite IFF. destruct (Z.leb_spec 0 x), (Z.ltb_spec x (size_of d n)); cbn [andb]; split; intros; try lia; auto.
    eapply packed_contig; eauto.
  - apply unpack_with_same. intros a b I. destruct P as (junk & P). rewrite P.
    + unfold bytes_moved. rewrite C. now apply pack_with_in.
    + specialize (RG a). unfold size_of. assert (In a (map fst (packn (build d) n))) by (apply in_map_iff; exists (a, b); auto). specialize (RG H). lia.
Qed.

(** With one type on both sides, of blocks without gaps in any number or one vector of
    single elements, the bytes of the elements arrive and no others are written. *)
Theorem pt2pt_elements : forall c user h s r f out b1 d n1 src b2 n2 dst, prun c user h s -> rules h ->
  In (ORecvDone r f out) h -> In (OSend f b1 d n1 src) h -> In (ORecv r b2 d n2 dst) h ->
  solid d \/ (spread d /\ n1 = 1%nat) ->
  forall x, (In x (tmapn d n1) -> out x = src x) /\ (~ In x (tmapn d n1) -> out x = dst x).
Proof.
  intros c user h s r f out b1 d n1 src b2 n2 dst R RU D S Q H x.
  destruct (pt2pt_data _ _ _ _ _ _ _ R RU D) as (b1' & d1' & n1' & src' & b2' & d2' & n2' & dst' & S' & Q' & _ & RC).
  destruct (run_inv c user h s R RU) as [_ L _].
  destruct (l_fl1 _ _ _ _ _ _ _ _ L _ _ _ _ _ _ _ _ _ S S') as (<- & <- & <- & <-).
  destruct (l_rq1 _ _ _ _ _ _ _ _ L _ _ _ _ _ _ _ _ _ Q Q') as (<- & <- & <- & <-).
  assert (E : map snd (bytes_moved (build d) n1) = tmapn d n1 /\ blocks_pos d).
  { destruct H as [K|(K & ->)].
    - split; [now apply solid_bytes|now apply solid_pos].
    - split; [|now apply spread_pos]. unfold tmapn. rewrite copies_1. now apply spread_bytes. }
  destruct E as (<- & B). now apply received_same.
Qed.
Print Assumptions pt2pt_elements.

(** All three protocols on all paths, with both acknowledgements of the rendezvous. *)
Example pt2pt_data_ex :
  forallb (fun soft => forallb (fun pa =>
    forallb (fun n => ends soft (one_message (DPrim 1) n pa (Nat.leb n 8)) (fun h s => all_done h s &&
        zs_eqb (bytes 1 [-1; 0; 1; 2; Z.of_nat n - 1; Z.of_nat n; Z.of_nat n + 1] s)
          [999; 0; 1; 2; Z.of_nat n - 1; 1000 + Z.of_nat n; 1001 + Z.of_nat n])) [3; 6; 70]%nat &&
    forallb (fun n => ends soft (one_message vec n pa (Nat.leb n 4)) (fun h s => all_done h s &&
        zs_eqb (bytes 1 [-1; 0; 1; 2; 3] s) [999; 0; 1001; 1002; 3])) [1; 3; 35]%nat)
    [Self; Intra; Inter]) [true; false] = true.
Proof. vm_compute. reflexivity. Qed.
Example pt2pt_elements_ex : spread vec /\ tmapn vec 1 = [0; 3].
Proof. split; [|reflexivity]. cbn. repeat split; try lia; try discriminate; auto. Qed.

(** ** C109: completion *)

(** Sends and receives complete at most once and messages are matched at most once; only
    sends that were called and receives that were matched complete. *)
Theorem pt2pt_once : forall c user h s, prun c user h s -> rules h ->
  NoDup (sends_done h) /\ NoDup (recvs_done h) /\ NoDup (flows_matched h) /\
  (forall f, In (OSendDone f) h -> exists b d n src, In (OSend f b d n src) h) /\
  (forall r f out, In (ORecvDone r f out) h -> In (OMatch r f) h).
Proof.
  intros c user h s R RU. destruct (run_inv c user h s R RU) as [_ L _]. destruct L. repeat split; eauto.
Qed.
Print Assumptions pt2pt_once.

(** A send that is not longer than the eager limit is complete at once. *)
Theorem eager_send_done : forall c user h s f b d n src, prun c user h s -> rules h ->
  In (OSend f b d n src) h -> size_of d n <= c_vshort c \/ size_of d n <= c_eager c -> In (OSendDone f) h.
Proof.
  intros c user h s f b d n src R RU S SZ. destruct (run_inv c user h s R RU) as [M L _].
  destruct (l_sopen _ _ _ _ _ _ _ _ L _ _ _ _ _ S) as [I|I]; [|exact I]. exfalso.
  apply (Permutation_in _ (Permutation_sym (l_carry _ _ _ _ _ _ _ _ L))) in I. apply ids_in in I. destruct I as (it & I & CA & <-).
  destruct (m_items _ _ _ _ _ _ M it I) as (b' & d' & n' & src' & S' & _ & _ & P & _).
  destruct (l_fl1 _ _ _ _ _ _ _ _ L _ _ _ _ _ _ _ _ _ S S') as (<- & <- & <- & <-).
  unfold choose in P. unfold carrier in CA.
  destruct (Z.leb_spec (size_of d n) (c_vshort c)); [rewrite P in CA; destruct (g_ty (snd it)); discriminate|].
  destruct (Z.leb_spec (size_of d n) (c_eager c)); [rewrite P in CA; destruct (g_ty (snd it)); discriminate|lia].
Qed.
Print Assumptions eager_send_done.

(** Once nothing is on its way, every matched pair is complete on both sides. *)
Theorem pt2pt_complete : forall c user h s r f, prun c user h s -> rules h -> quiet s -> In (OMatch r f) h ->
  In (OSendDone f) h /\ exists out, In (ORecvDone r f out) h.
Proof.
  intros c user h s r f R RU Q MT. destruct (run_inv c user h s R RU) as [M L [DD _]].
  assert (RD : exists out, In (ORecvDone r f out) h).
  { destruct (l_match _ _ _ _ _ _ _ _ L _ _ MT) as [D|(q & I & E)]; [exact D|]. exfalso.
    assert (F : In f (map fst (s_recvs s))) by (apply in_map_iff; exists (f, q); auto).
    apply (Permutation_in _ (Permutation_sym (l_get _ _ _ _ _ _ _ _ L))) in F. apply ids_in in F. destruct F as (it & F & G & _).
    destruct (m_items _ _ _ _ _ _ M it F) as (b & d & n & src & _ & _ & _ & _ & B). specialize (Q it F).
    unfold getter in G. unfold body in B. destruct (g_prot (snd it)), (g_ty (snd it)); try discriminate; destruct B as (B & _); congruence. }
  split; [|exact RD]. destruct RD as (out & RD). destruct (DD _ _ _ RD) as (b1 & d1 & n1 & src & b2 & d2 & n2 & dst & S & _).
  destruct (l_sopen _ _ _ _ _ _ _ _ L _ _ _ _ _ S) as [I|I]; [|exact I]. exfalso.
  apply (Permutation_in _ (Permutation_sym (l_carry _ _ _ _ _ _ _ _ L))) in I. apply ids_in in I. destruct I as (it & I & CA & E).
  destruct (m_items _ _ _ _ _ _ M it I) as (b & d & n & src' & _ & _ & _ & _ & B). specialize (Q it I).
  assert (W : waiting it = true -> False).
  { intros W. apply (l_wait _ _ _ _ _ _ _ _ L it I W). rewrite E. apply matched_in. eauto. }
  unfold carrier in CA. unfold body in B. unfold waiting in W.
  destruct (g_prot (snd it)), (g_ty (snd it)); try discriminate.
  - destruct (g_stage (snd it)); [now apply W|]. destruct B as (_ & _ & B & _). congruence.
  - destruct B as (B & _). congruence.
  - destruct B as (B & _). congruence.
  - destruct B as (B & _). congruence.
Qed.
Print Assumptions pt2pt_complete.

(** From every point of a run the messages come to rest after a number of moves bounded
    in advance, however they are chosen; and they can always move until then. So every
    match that has happened is then complete. *)
Theorem pt2pt_settles : forall c user h s, prun c user h s -> rules h ->
  (exists N, forall k h2 s2, settle c k h s h2 s2 -> (k <= N)%nat) /\
  (forall k h1 s1, settle c k h s h1 s1 -> exists k2 h2 s2, settle c k2 h1 s1 h2 s2 /\ quiet s2 /\
     prun c user h2 s2 /\ forall r f, In (OMatch r f) h2 -> In (OSendDone f) h2 /\ exists out, In (ORecvDone r f out) h2).
Proof.
  intros c user h s R RU. split.
  - exists (wts (s_items s)). intros k h2 s2 S. apply settle_bound in S. lia.
  - intros k h1 s1 S. assert (R1 := settle_run _ user _ _ _ _ _ S R). assert (RU1 := settle_rules _ _ _ _ _ _ S RU).
    destruct (settles c user _ h1 s1 (le_n _) R1 RU1) as (k2 & h2 & s2 & S2 & Q). exists k2, h2, s2.
    assert (R2 := settle_run _ user _ _ _ _ _ S2 R1). assert (RU2 := settle_rules _ _ _ _ _ _ S2 RU1).
    split; [exact S2|]. split; [exact Q|]. split; [exact R2|]. intros r f I. eapply pt2pt_complete; eauto.
Qed.
Print Assumptions pt2pt_settles.

(** Three messages at once, matched out of order; the one without a receive is left. *)
Example pt2pt_settles_ex :
  ends false [ASend 0 (DPrim 1) 70 Inter; ASend 2 (DPrim 1) 6 Intra; ASend 3 (DPrim 1) 2 Inter; APost 1 (DPrim 1) 80;
              APost 4 (DPrim 1) 80; AMove 0; AMove 0; ARest 50; AMatch 2 1; AMatch 0 0; ARest 50]
    (fun h s => match s_items s with [(Unexp, m)] => Nat.eqb (g_id m) 1 | _ => false end
       && zs_eqb (map Z.of_nat (sends_done h)) [0; 2; 1] && Nat.eqb (length (recvs_done h)) 2) = true.
Proof. vm_compute. reflexivity. Qed.

(** ** C110: memory *)

(** No message, match or send of a program that obeys the rules deletes memory twice, uses
    deleted memory, a null pointer or bytes beyond a block; and no message in the progress
    queue stops the program. *)
Theorem pt2pt_no_fault : forall c user h s, prun c user h s -> rules h ->
  (forall l it r, s_items s = l ++ it :: r -> fst it <> Unexp -> exists o s', moves_on c it (l ++ r) s = Next o s') /\
  (forall l m r k q j, s_items s = l ++ (Unexp, m) :: r -> s_posted s = k ++ q :: j ->
     rules (OMatch (q_id q) (g_id m) :: h) -> matched c m q (l ++ r) (k ++ j) s <> Fault) /\
  (forall b d n pa, blocks_pos d -> exists o s', send c b d n pa s = Some (o, s')).
Proof.
  intros c user h s R RU. assert (IV := run_inv c user h s R RU). split; [|split].
  - intros l it r E N. destruct (moves_ok c user h s l it r IV (proj1 RU) E N) as (o & s' & M & _). eauto.
  - intros l m r k q j E Q RM. destruct (size_of (q_type q) (q_count q) <? g_pay m) eqn:SZ; [unfold matched; rewrite SZ; discriminate|].
    destruct (matched_ok c user h s l m r k q j IV RM E Q SZ) as (o & s' & M & _). congruence.
  - intros b d n pa B. destruct (send_ok c user h s b d n pa IV B) as (o & s' & M & _). eauto.
Qed.
Print Assumptions pt2pt_no_fault.

(** ** C112: memory is released *)

(** When no message is left and no receive is waiting, everything the library allocated has
    been deleted, if every send was longer than the Eager0 limit, and contiguous if longer
    than the Eager1 limit.  Missing: the other sends, see the refutation. *)
Theorem pt2pt_released_partial : forall c user h s, prun c user h s -> rules h ->
  (forall f b d n src, In (OSend f b d n src) h ->
     c_vshort c < size_of d n /\ (size_of d n <= c_eager c \/ mcontig (build d) = true)) ->
  s_items s = [] -> s_posted s = [] -> forall k, hp_heap (s_hp s) k = None.
Proof.
  intros c user h s R RU T EI EP k. destruct (hp_heap (s_hp s) k) eqn:E; [|reflexivity]. exfalso.
  assert (I : In k (flat_map own (s_items s) ++ flat_map ownq (s_posted s))).
  { apply (run_covered c user h s R RU T). unfold live. congruence. }
  rewrite EI, EP in I. destruct I.
Qed.
Print Assumptions pt2pt_released_partial.

Example pt2pt_released_ex :
  forallb (fun pa => forallb (fun dn => ends false (one_message (fst dn) (snd dn) pa false) (fun h s => all_done h s &&
      negb (Nat.eqb (hp_next (s_hp s)) 0) && forallb (fun k => match hp_heap (s_hp s) k with None => true | _ => false end) (seq 0 (hp_next (s_hp s)))))
    [(DPrim 1, 6); (vec, 3)]%nat) [Self; Intra; Inter] = true.
Proof. vm_compute. reflexivity. Qed.

(** The temporary of an Eager0 send to another rank is never deleted, nor is that of a
    rendezvous whose type is not contiguous. *)
Definition leaks (c : pcfg) (user : nat -> mem Z) (d : dt) (n : nat) : Prop :=
  exists h s k, prun c user h s /\ rules h /\ s_items s = [] /\ s_posted s = [] /\ s_sends s = [] /\ s_recvs s = [] /\
    (exists src, In (OSend 0 0 d n src) h) /\ In (OSendDone 0) h /\ (exists out, In (ORecvDone 0 0 out) h) /\
    hp_heap (s_hp s) k <> None.
Lemma leaks_run : forall soft d n pa eager k,
  ends soft (one_message d n pa eager) (fun h s => all_done h s && match hp_heap (s_hp s) k with Some _ => true | None => false end &&
    existsb (fun e => match e with OSend 0 0 _ _ _ => true | _ => false end) h && existsb (fun e => match e with ORecvDone 0 0 _ => true | _ => false end) h) = true ->
  (forall h s, exec (cfg soft) (one_message d n pa eager) ([], pst0 mem0) = Some (h, s) -> exists src, In (OSend 0 0 d n src) h) ->
  leaks (cfg soft) mem0 d n.
Proof.
  intros soft d n pa eager k E SN. unfold ends in E. destruct (exec (cfg soft) (one_message d n pa eager) ([], pst0 mem0)) as [(h, s)|] eqn:X; [|discriminate].
  apply andb_prop in E. destruct E as (E & F). rewrite !andb_true_iff in F. destruct F as (((A & B) & _) & D). exists h, s, k.
  split; [eapply exec_run; [constructor|exact X]|]. split; [exact (rules_ok ex_types h ex_types_ok E)|].
  unfold all_done in A. destruct (s_items s), (s_posted s), (s_recvs s), (s_sends s); try discriminate.
  apply andb_prop in A. destruct A as (A & _). repeat (split; [first [reflexivity|exact (SN h s eq_refl)|now apply sdone_out]|]).
  split.
  - apply existsb_exists in D. destruct D as (e & I & D). destruct e as [| | | | |[|r] [|f] out]; try discriminate. eauto.
  - destruct (hp_heap (s_hp s) k); [discriminate|congruence].
Qed.
Theorem pt2pt_released_refuted :
  leaks (cfg false) mem0 (DPrim 1) 3 /\ leaks (cfg false) mem0 vec 35.
Proof.
  split.
  - apply (leaks_run false (DPrim 1) 3 Inter true 0); [vm_compute; reflexivity|]. intros h s X. vm_compute in X. injection X as <- _.
    eexists. cbn [In]. do 5 right. left. reflexivity.
  - apply (leaks_run false vec 35 Inter false 1); [vm_compute; reflexivity|]. intros h s X. vm_compute in X. injection X as <- _.
    eexists. cbn [In]. do 4 right. left. reflexivity.
Qed.
Print Assumptions pt2pt_released_refuted.

(** ** C111: messages that are too long *)

(** An eager message is rejected exactly when it is longer than the receive. *)
Theorem eager_truncation_partial : forall c user h s l m r k q j b1 d1 n1 src b2 d2 n2 dst, prun c user h s -> rules h ->
  s_items s = l ++ (Unexp, m) :: r -> s_posted s = k ++ q :: j ->
  In (OSend (g_id m) b1 d1 n1 src) h -> In (ORecv (q_id q) b2 d2 n2 dst) h ->
  size_of d1 n1 <= c_vshort c \/ size_of d1 n1 <= c_eager c ->
  (mcontig (build d2) = true \/ (n1 <= n2)%nat) ->
  (matched c m q (l ++ r) (k ++ j) s = Abort <-> size_of d2 n2 < size_of d1 n1).
Proof.
  intros c user h s l m r k q j b1 d1 n1 src b2 d2 n2 dst R RU E Q S P SZ CN.
  assert (IV := run_inv c user h s R RU). destruct IV as [M L D] eqn:EIV. clear EIV.
  assert (I : In (Unexp, m) (s_items s)) by (rewrite E; apply in_or_app; right; now left).
  assert (IQ : In q (s_posted s)) by (rewrite Q; apply in_or_app; right; now left).
  destruct (m_items _ _ _ _ _ _ M _ I) as (b & d & n & src' & S' & _ & _ & PR & B). unfold fid in S'. cbn [snd] in *.
  destruct (l_fl1 _ _ _ _ _ _ _ _ L _ _ _ _ _ _ _ _ _ S S') as (<- & <- & <- & <-).
  destruct (m_posted _ _ _ _ _ _ M _ IQ) as (b' & d' & n' & dst' & T & _). destruct T as (T & T1 & T2 & T3).
  destruct (l_rq1 _ _ _ _ _ _ _ _ L _ _ _ _ _ _ _ _ _ P T) as (<- & <- & <- & <-).
  assert (GP : g_pay m = size_of d1 n1).
  { unfold body in B. cbn [fst snd] in B. unfold choose in PR.
    assert (PE : g_prot m <> Rendezvous) by (destruct (Z.leb_spec (size_of d1 n1) (c_vshort c)), (Z.leb_spec (size_of d1 n1) (c_eager c)); try congruence; lia).
    destruct (g_prot m), (g_ty m); try contradiction; try congruence; try tauto; destruct B as (B & _); try congruence. }
  assert (SQ : size_of (q_type q) (q_count q) = size_of d2 n2) by congruence.
  split.
  - intros A. destruct (size_of (q_type q) (q_count q) <? g_pay m) eqn:LT; [apply Z.ltb_lt in LT; lia|].
    exfalso. apply Z.ltb_ge in LT as LE.
    assert (RM : rules (OMatch (q_id q) (g_id m) :: h)).
    { destruct RU as (O & (Y1 & Y2) & F). split; [split; [exact O|exact Logic.I]|]. split.
      - split; [intros f x1 x2 x3 x4 [X|X]; [discriminate|eauto]|intros f x1 x2 x3 x4 [X|X]; [discriminate|eauto]].
      - intros r0 f c1 e1 k1 s1 c2 e2 k2 s2 [X|X] [Y|Y] [Z|Z]; try discriminate; [|eapply F; eauto].
        injection X as <- <-. destruct (l_fl1 _ _ _ _ _ _ _ _ L _ _ _ _ _ _ _ _ _ S Y) as (<- & <- & <- & <-).
        destruct (l_rq1 _ _ _ _ _ _ _ _ L _ _ _ _ _ _ _ _ _ P Z) as (<- & <- & <- & <-). split; [lia|exact CN]. }
    destruct (matched_ok c user h s l m r k q j (Build_inv _ _ _ _ M L D) RM E Q LT) as (o & s' & MM & _). congruence.
  - intros LT. unfold matched. rewrite SQ, GP. apply Z.ltb_lt in LT. now rewrite LT.
Qed.
Print Assumptions eager_truncation_partial.

(** A rendezvous message is checked by the length of its header, 64 bytes.  So one that is
    longer than the receive is not rejected, and overwrites what follows the buffer of the
    receive; and one that fits is rejected when the receive is shorter than 64 bytes. *)
Theorem rendezvous_truncation_refuted :
  (exists c user h s m q s1 k h2 s2 out, prun c user h s /\ rules h /\
     s_items s = [(Unexp, m)] /\ s_posted s = [q] /\
     In (OSend (g_id m) 0 (DPrim 1) 70 (user 0%nat)) h /\ In (ORecv (q_id q) 1 (DPrim 1) 64 (user 1%nat)) h /\
     matched c m q [] [] s = Next [OMatch (q_id q) (g_id m)] s1 /\
     settle c k (OMatch (q_id q) (g_id m) :: h) s1 h2 s2 /\
     In (ORecvDone (q_id q) (g_id m) out) h2 /\ out 69 <> user 1%nat 69) /\
  (exists c user h s m q, prun c user h s /\ rules h /\
     s_items s = [(Unexp, m)] /\ s_posted s = [q] /\
     In (OSend (g_id m) 0 (DPrim 1) 20 (user 0%nat)) h /\ In (ORecv (q_id q) 1 (DPrim 1) 20 (user 1%nat)) h /\
     matched c m q [] [] s = Abort).
Proof.
  split.
  - pose (l := [APost 1 (DPrim 1) 64; ASend 0 (DPrim 1) 70 Inter; ARest 50]).
    destruct (exec (cfg false) l ([], pst0 mem0)) as [(h, s)|] eqn:X; [|vm_compute in X; discriminate].
    assert (R : prun (cfg false) mem0 h s) by (eapply exec_run; [constructor|exact X]).
    assert (RU : rules h).
    { apply (rules_ok ex_types h ex_types_ok). vm_compute in X. injection X as <- _. vm_compute. reflexivity. }
    unfold l in X. cbv -[mem0] in X. injection X as E1 E2.
    subst h s.
    match goal with R : prun _ _ ?h ?s |- _ =>
      match s with context [[(Unexp, ?m)]] => match s with context [[?q]] => match type of q with rreq =>
        destruct (matched (cfg false) m q [] [] s) as [o s1| |] eqn:MM; [|vm_compute in MM; discriminate|vm_compute in MM; discriminate];
        assert (Eo : o = [OMatch 0 0]) by (vm_compute in MM; injection MM as <- _; reflexivity); subst o;
        destruct (go_rest (cfg false) 50 (OMatch 0 0 :: h, s1)) as [(h2, s2)|] eqn:G;
          [|vm_compute in MM; injection MM as <-; vm_compute in G; discriminate];
        assert (B : existsb (fun e => match e with ORecvDone 0 0 out => negb (out 69 =? 1069) | _ => false end) h2 = true)
          by (vm_compute in MM; injection MM as <-; vm_compute in G; injection G as <- _; vm_compute; reflexivity);
        apply existsb_exists in B; destruct B as (e & IE & B); destruct e as [| | | | |[|r] [|f] out]; try discriminate;
        destruct (go_rest_settle _ _ _ _ _ G) as (k & ST);
        exists (cfg false), mem0, h, s, m, q, s1, k, h2, s2, out
      end end end end.
    split; [exact R|]. split; [exact RU|]. split; [reflexivity|]. split; [reflexivity|].
    split; [now left|]. split; [right; now left|]. split; [exact MM|]. split; [exact ST|]. split; [exact IE|].
    apply negb_true_iff, Z.eqb_neq in B. exact B.
  - pose (l := [APost 1 (DPrim 1) 20; ASend 0 (DPrim 1) 20 Inter; ARest 50]).
    destruct (exec (cfg false) l ([], pst0 mem0)) as [(h, s)|] eqn:X; [|vm_compute in X; discriminate].
    assert (R : prun (cfg false) mem0 h s) by (eapply exec_run; [constructor|exact X]).
    assert (RU : rules h).
    { apply (rules_ok ex_types h ex_types_ok). vm_compute in X. injection X as <- _. vm_compute. reflexivity. }
    unfold l in X. cbv -[mem0] in X. injection X as E1 E2.
    subst h s. eexists (cfg false), mem0, _, _, _, _.
    split; [exact R|]. split; [exact RU|]. split; [reflexivity|]. split; [reflexivity|].
    split; [now left|]. split; [right; now left|]. reflexivity.
Qed.
Print Assumptions rendezvous_truncation_refuted.

Example eager_truncation_ex : forall pa,
  match exec (cfg true) [APost 1 (DPrim 1) 5; ASend 0 (DPrim 1) 6 pa; ARest 50] ([], pst0 mem0) with
  | Some (_, s) => match s_items s, s_posted s with [(Unexp, m)], [q] => matched (cfg true) m q [] [] s = Abort | _, _ => False end
  | None => False
  end.
Proof. intros []; vm_compute; reflexivity. Qed.
