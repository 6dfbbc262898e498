(** C95: scatter hands block p of the root's buffer to rank p. *)
From Coq Require Import List Arith Lia Bool.
From Verif Require Import RdModel RdProof AgProof PhModel PhProof BcModel BcProof GaModel GaProof ScModel ScProof.
Import ListNotations.

(** The result of rank [p]: its block of the root's send buffer [src], and
    nothing else of the result buffer written. *)
Definition scattered {T} (nelems : nat) (src : nat -> T) (p : nat) (old b : nat -> T) : Prop :=
  (forall i, i < nelems -> b i = src (p * nelems + i)) /\ (forall i, nelems <= i -> b i = old i).

Lemma sc_inv_done : forall (T : Type) n root nelems src (buf : nat -> sbuf T) p b, 2 <= n -> root < n -> p < n ->
  root = 0 \/ root mod 2 = 1 ->
  sc_inv n root nelems src buf p (length (pg_ph (scatter_prog n root nelems src buf) p)) b ->
  scattered nelems src p (s_res (buf p)) (s_res b) /\
  (forall w, n <= 2 ^ S w -> forall i, 2 ^ w * nelems <= i -> s_rcv b i = s_rcv (buf p) i).
Proof.
  intros T n root nelems src buf p b Hn Hr Hp Ho ((K1 & K2) & I2 & I3 & I4 & I5). split.
  - split; [|exact K1]. change (res_ok nelems src p b).
    assert (Hpar : p mod 2 = 0 \/ p mod 2 = 1) by (pose proof (Nat.mod_upper_bound p 2 ltac:(lia)); lia).
    destruct (Nat.eq_dec p root) as [->|Hne].
    + destruct Ho as [Ho|Ho]; [apply I2; auto|]. apply I3; [exact Ho|]. rewrite Nat.eqb_refl.
      cbn [scatter_prog pg_ph]. unfold sc_phases, sc_half, sc_rest. rewrite Nat.eqb_refl.
      destruct (Nat.eqb_spec root (sc_mid n)) as [E|E]; destruct (Nat.eqb_spec root 0) as [E0|E0];
        rewrite !app_length; cbn [length]; try lia.
      * rewrite E0 in Ho. discriminate.
      * destruct (sc_loop n root nelems src (S n) root (sc_mid n / 2) 1); cbn [sc_attach length]; lia.
    + destruct Hpar as [He|Hod]; [apply I5; auto|]. apply I3; [exact Hod|]. destruct (Nat.eqb_spec p root); [contradiction|].
      cbn [scatter_prog pg_ph]. unfold sc_phases. rewrite !app_length. cbn [length]. lia.
  - intros w Hw i Hi. apply K2.
    assert (Hm : sc_mid n <= 2 ^ w).
    { pose proof (sc_mid_lt n root Hn Hr) as Hm. pose proof (sc_mid_pow n root Hn Hr) as E. rewrite E in Hm |- *. apply Nat.pow_le_mono_r; [lia|].
      destruct (le_lt_dec (log2_of n - 1) w) as [H|H]; [exact H|exfalso].
      pose proof (Nat.pow_le_mono_r 2 (S w) (log2_of n - 1) ltac:(lia) H). lia. }
    pose proof (Nat.mul_le_mono_r _ _ nelems Hm). lia.
Qed.

(** For three or more ranks and a root that is 0 or odd, under any interleaving:
    a bounded number of steps; every execution that stops has completed every
    rank without leftover messages; and every rank then has its block.  No rank
    wrote past its result or past its workspace.
    MISSING: two ranks and even roots; there it is false, see below. *)
Theorem scatter_delivers_partial : forall (T : Type) n root nelems (src : nat -> T) (buf : nat -> sbuf T),
  3 <= n -> root < n -> root = 0 \/ root mod 2 = 1 ->
  let g := scatter_prog n root nelems src buf in
  (exists B, forall k c, pexec g k c -> k <= B) /\
  (forall k c, pexec g k c -> pstuck g c ->
     p_net c = [] /\ forall p, p < n -> pdone (p_proc c p) /\
     scattered nelems src p (s_res (buf p)) (s_res (w_mem (p_proc c p))) /\
     forall w, n <= 2 ^ S w -> forall i, 2 ^ w * nelems <= i ->
       s_rcv (w_mem (p_proc c p)) i = s_rcv (buf p) i).
Proof.
  intros T n root nelems src buf Hn Hr Ho g. assert (Hn2 : 2 <= n) by lia. split.
  - eexists. intros k c H. exact (phases_bounded g k c H).
  - intros k c Hx Hs. destruct (sc_balanced_single n root nelems Hn2 Hr src buf) as (B & S1).
    destruct (phases_complete g _ B S1 (sc_inside n root nelems Hn2 Hr src buf)
                (sc_ordered n root nelems Hn2 Hr src buf) k c Hx Hs) as (Hd & Hnet).
    split; [exact Hnet|]. intros p Hp. split; [exact (Hd p Hp)|].
    apply (sc_inv_done T n root nelems src buf p); [exact Hn2|exact Hr|exact Hp|exact Ho|].
    exact (phases_result g _ _ (sc_annotated n root nelems Hn2 Hr src buf Hn Ho) k c p Hx Hp (Hd p Hp)).
Qed.
Print Assumptions scatter_delivers_partial.

(** A rank may use its block as soon as it is through itself. *)
Theorem scatter_early_partial : forall (T : Type) n root nelems (src : nat -> T) (buf : nat -> sbuf T) k c p,
  3 <= n -> root < n -> root = 0 \/ root mod 2 = 1 -> p < n ->
  pexec (scatter_prog n root nelems src buf) k c -> pdone (p_proc c p) ->
  scattered nelems src p (s_res (buf p)) (s_res (w_mem (p_proc c p))).
Proof.
  intros T n root nelems src buf k c p Hn Hr Ho Hp Hx Hd. assert (Hn2 : 2 <= n) by lia.
  apply (sc_inv_done T n root nelems src buf p); [exact Hn2|exact Hr|exact Hp|exact Ho|].
  exact (phases_result _ _ _ (sc_annotated n root nelems Hn2 Hr src buf Hn Ho) k c p Hx Hp Hd).
Qed.
Print Assumptions scatter_early_partial.

(** The rank that is left out. *)
Definition sc_victim (n root : nat) : nat := if root =? 0 then 1 else root.
Definition sc_untouched (T : Type) (n root : nat) (buf : nat -> sbuf T) (p k : nat) (b : sbuf T) : Prop :=
  p = sc_victim n root -> s_res b = s_res (buf p).

Lemma sc_victim_annotated : forall (T : Type) n root nelems src (buf : nat -> sbuf T), 2 <= n -> root < n ->
  n = 2 \/ (root <> 0 /\ root mod 2 = 0) ->
  annotated (scatter_prog n root nelems src buf) (sc_untouched T n root buf) (fun _ _ _ _ => True).
Proof.
  intros T n root nelems src buf Hn Hr Hc. split.
  - intros p Hp Hv. subst p. cbn [scatter_prog pg_init]. unfold sc_init, sc_victim.
    destruct (Nat.eqb_spec root 0) as [E|E].
    + destruct (Nat.eqb_spec 1 root); [lia|reflexivity].
    + rewrite Nat.eqb_refl. cbn [negb]. destruct (root =? sc_mid n); reflexivity.
  - intros p k h Hp Hk. split; [intros; exact Logic.I|]. intros m Hw Hv. cbn [scatter_prog pg_np] in Hp.
    assert (Hph : (forall b, s_res (ph_loc h b) = s_res b) /\
                  (ph_rcv h = [] \/ exists t q c, ph_rcv h = [@sc_recv T nelems false t q c])).
    { assert (Hups : forall i j l, In l (@sc_ups T n root nelems src i j) -> (forall b, s_res (ph_loc l b) = s_res b) /\
                  (ph_rcv l = [] \/ exists t q c, ph_rcv l = [@sc_recv T nelems false t q c])).
      { intros i j l Hl. unfold sc_ups in Hl. apply in_map_iff in Hl. destruct Hl as (x & <- & _). cbn. auto. }
      assert (Hlp : forall l, In l (sc_lp n root nelems src p) -> (forall b, s_res (ph_loc l b) = s_res b) /\
                  (ph_rcv l = [] \/ exists t q c, ph_rcv l = [@sc_recv T nelems false t q c])).
      { intros l Hl. destruct (sc_lp_cases n root nelems Hn Hr src p Hp) as [(_ & E)|(H0 & H1 & v & Hlt & B & E)]; rewrite E in Hl.
        - exact (Hups _ _ _ Hl).
        - destruct Hl as [<-|Hl]; [|exact (Hups _ _ _ Hl)]. cbn [sc_rph ph_loc ph_rcv]. split; [reflexivity|]. right.
          assert (Ev : v <> 0).
          { destruct Hc as [->|(Hr0 & Hev)]; [cbn in Hlt; lia|]. subst p. unfold sc_victim in B. destruct (Nat.eqb_spec root 0); [contradiction|].
            exact (even_level _ _ _ B Hev). }
          destruct (Nat.eqb_spec (2 ^ v) 1) as [E1|E1]; [pose proof (Nat.pow_gt_lin_r 2 v ltac:(lia)); lia|]. eauto. }
      apply nth_error_In in Hk. cbn [scatter_prog pg_ph] in Hk. unfold sc_phases in Hk. rewrite !in_app_iff in Hk.
      destruct Hk as [Hk|[Hk|Hk]].
      - unfold sc_half in Hk. destruct (root =? sc_mid n); [destruct Hk|]. rewrite in_app_iff in Hk.
        destruct Hk as [Hk|Hk].
        + destruct (p =? root); [|destruct Hk]. destruct Hk as [<-|[]]. cbn. auto.
        + destruct (p =? sc_mid n); [|destruct Hk]. destruct Hk as [<-|[]]. cbn. split; [reflexivity|]. right. unfold sc_recv. eauto.
      - unfold sc_rest in Hk. cbv zeta in Hk. fold (sc_lp n root nelems src p) in Hk. destruct (root =? 0); [exact (Hlp _ Hk)|].
        destruct (p =? root).
        + destruct (sc_lp n root nelems src p) as [|x l].
          * destruct Hk as [<-|[]]. cbn. auto.
          * destruct Hk as [<-|Hk]; [|apply Hlp; right; exact Hk]. cbn. destruct (Hlp x (or_introl eq_refl)) as (H1 & H2). auto.
        + destruct (p =? 0); [|exact (Hlp _ Hk)]. destruct Hk as [<-|Hk]; [|exact (Hlp _ Hk)]. cbn.
          split; [reflexivity|]. right. unfold sc_recv. eauto.
      - destruct Hk as [<-|[]]. cbn [ph_loc ph_rcv]. split; [|auto]. intros b. unfold sc_finalize. subst p. unfold sc_victim.
        destruct (Nat.eqb_spec root 0) as [E|E]; [|rewrite Nat.eqb_refl; reflexivity].
        change (1 mod 2 =? 0) with false. rewrite orb_true_r. reflexivity. }
    destruct Hph as (Hloc & [E|(t & q & c & E)]).
    + eapply within_none in Hw; [|exact E]. destruct Hw as (_ & m0 & Hi & ->). rewrite Hloc. exact (Hi Hv).
    + eapply within_one in Hw; [|exact E]. destruct Hw as (m0 & Hi & [(E2 & _)|(_ & v & _ & ->)]); [discriminate|].
      cbn [set_rcv s_res]. rewrite Hloc. exact (Hi Hv).
Qed.

(** Whenever there are two ranks only, or the root is even and not 0, the full
    claim fails: complete executions exist, and in each of them some rank's
    result buffer is exactly what it was before the call, whatever was scattered. *)
Theorem scatter_refuted : forall n root, 2 <= n -> root < n -> n = 2 \/ (root <> 0 /\ root mod 2 = 0) ->
  exists p, p < n /\ forall (T : Type) nelems (src : nat -> T) (buf : nat -> sbuf T),
  let g := scatter_prog n root nelems src buf in
  (exists k c, pexec g k c /\ pstuck g c) /\
  (forall k c, pexec g k c -> pstuck g c -> pdone (p_proc c p) /\ s_res (w_mem (p_proc c p)) = s_res (buf p)).
Proof.
  intros n root Hn Hr Hc. assert (Hp : sc_victim n root < n) by (unfold sc_victim; destruct (root =? 0); lia).
  exists (sc_victim n root). split; [exact Hp|]. intros T nelems src buf g.
  destruct (sc_balanced_single n root nelems Hn Hr src buf) as (B & S1).
  pose proof (sc_inside n root nelems Hn Hr src buf) as Hi. pose proof (sc_ordered n root nelems Hn Hr src buf) as Ho. split.
  - exact (phases_run g _ B S1 Hi Ho).
  - intros k c Hx Hs. destruct (phases_complete g _ B S1 Hi Ho k c Hx Hs) as (Hd & _). split; [exact (Hd _ Hp)|].
    exact (phases_result g _ _ (sc_victim_annotated T n root nelems src buf Hn Hr Hc) k c _ Hx Hp (Hd _ Hp) eq_refl).
Qed.
Print Assumptions scatter_refuted.

(** Six ranks, root 3, two elements each. *)
Definition ex_src (i : nat) : nat := 10 + i.
Definition ex_buf (p : nat) : sbuf nat := {| s_rcv := fun i => 500 + i; s_res := fun i => 900 + i |}.
Example ex_scatter_messages : map (fun p => @all_s (sbuf nat) (list nat) (sc_phases 6 3 2 ex_src p)) (seq 0 6) =
  [[(1, 2); (2, 1)]; []; [(2, 3)]; [(0, 4); (0, 0)]; [(2, 5)]; []].
Proof. vm_compute. reflexivity. Qed.
Example ex_scatter_run : exists k c, pexec (scatter_prog 6 3 2 ex_src ex_buf) k c /\
  pstuck (scatter_prog 6 3 2 ex_src ex_buf) c /\
  map (fun p => map (s_res (w_mem (p_proc c p))) (seq 0 3)) (seq 0 6) =
  [[10; 11; 902]; [12; 13; 902]; [14; 15; 902]; [16; 17; 902]; [18; 19; 902]; [20; 21; 902]].
Proof.
  assert (Hn : 2 <= 6) by lia. assert (Hr : 3 < 6) by lia.
  destruct (sc_balanced_single 6 3 2 Hn Hr ex_src ex_buf) as (B & S1).
  destruct (phases_run _ _ B S1 (sc_inside 6 3 2 Hn Hr ex_src ex_buf) (sc_ordered 6 3 2 Hn Hr ex_src ex_buf)) as (k & c & Hx & Hs).
  exists k, c. split; [exact Hx|]. split; [exact Hs|].
  destruct (scatter_delivers_partial nat 6 3 2 ex_src ex_buf) as (_ & G); [lia|lia|auto|].
  destruct (G k c Hx Hs) as (_ & R). cbn [map seq].
  assert (R1 : forall p i, p < 6 -> i < 2 -> s_res (w_mem (p_proc c p)) i = ex_src (p * 2 + i)).
  { intros p i Hp Hi. destruct (R p Hp) as (_ & (E & _) & _). exact (E i Hi). }
  assert (R2 : forall p, p < 6 -> s_res (w_mem (p_proc c p)) 2 = 902).
  { intros p Hp. destruct (R p Hp) as (_ & (_ & E) & _). exact (E 2 (le_n 2)). }
  rewrite !R2 by lia. rewrite !R1 by lia. reflexivity.
Qed.
