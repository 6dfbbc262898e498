(** C34, C35, C36, C38, C81, C82, C83: groups and communicators. *)
From Coq Require Import List Arith ZArith NArith Bool Lia Permutation Sorted.
From Verif Require Import CmModel CmProof.
Import ListNotations.

(** ** C34: ids of new communicators *)

(** [w] is a state of [n] processes after some history of correct calls; fewer than
    0x44444444 communicators have been made, so that MPI_COMM_SELF is not reached. *)
Definition history (n : nat) (w : world) : Prop :=
  exists ops, Forall (clegal n) ops /\ (N.of_nat (length ops) + 2 < comm_self)%N
              /\ w = fold_left cstep ops (proc0 n).

(** Communicator [id] with group [g] has been made out of a call by [callers]:
    every member has it under this id, and before no caller had used the id. *)
Definition fresh_comm (w w' : world) (callers : list nat) (id : N) (g : group) : Prop :=
  (forall p, In p (g_tasks g) -> In (id, g) (pr_comms (w' p))) /\
  (forall p, In p callers -> ~ In id (map fst (pr_comms (w p)))).

Lemma history_inv : forall n w, history n w -> exists k, cinv n k w /\ (k + 2 < comm_self)%N.
Proof.
  intros n w (ops & L & B & ->). exists (0 + N.of_nat (length ops))%N. split; [|lia].
  apply cruns_inv; auto; [apply proc0_inv|lia].
Qed.

Lemma agree_fresh : forall n k w ms, cinv n k w -> (k + 2 < comm_self)%N ->
  (forall q, In q ms -> q < n) ->
  forall p, In p ms -> ~ In (agree w ms) (map fst (pr_comms (w p))).
Proof.
  intros n k w ms I B LT p Hp K. apply in_map_iff in K. destruct K as ([id g] & E & K).
  cbn [fst] in E. subst id.
  assert (agree w ms <= k + 2)%N.
  { unfold agree. apply maxN_le. intros x Hx. apply in_map_iff in Hx.
    destruct Hx as (q & <- & _). apply (ci_next _ _ _ I). }
  pose proof (ci_lt _ _ _ I p _ g p (LT p Hp) K) as C.
  pose proof (agree_ge w ms p Hp).
  assert (agree w ms < pr_next (w p))%N; [|lia].
  apply C; [lia|]. apply (ci_mem _ _ _ I p _ g (LT p Hp) K).
Qed.

Lemma creates_fresh : forall n k w w' ms S G p g, cinv n k w -> (k + 2 < comm_self)%N ->
  (forall q, In q ms -> q < n) -> creates n w w' ms S G ->
  p < n -> S p = true -> G p = Some g -> fresh_comm w w' ms (agree w ms) g.
Proof.
  intros n k w w' ms S G p g I B LT C Hp HS HG. split.
  - intros q Hq. destruct (cr_grp _ _ _ _ _ _ C p g Hp HS HG) as (_ & K).
    destruct (K q Hq) as (_ & A & A2). rewrite (cr_yes _ _ _ _ _ _ C q A), A2. left. reflexivity.
  - now apply (agree_fresh n k).
Qed.

(** MPI_Comm_create (and MPI_Comm_dup, MPI_Cart_create): one id, the same for all
    members and new to all callers. *)
Theorem create_id_agreed_fresh : forall n w ms g,
  history n w -> clegal n (CCreate ms g) ->
  exists id, fresh_comm w (cstep w (CCreate ms g)) ms id g.
Proof.
  intros n w ms g H L. destruct (history_inv n w H) as (k & I & B).
  exists (agree w ms). destruct L as (NE & ND & SUB & LT & WD) eqn:E0. split.
  - intros q Hq. pose proof (create_creates n w ms g (conj NE (conj ND (conj SUB (conj LT WD))))) as C.
    pose proof (cr_yes _ _ _ _ _ _ C q (proj2 (memb_in q ms) (SUB q Hq))) as Y.
    cbn [cstep]. rewrite Y. unfold create_grp. destruct (tasks_g_rank g q Hq) as (i & ->).
    left. reflexivity.
  - now apply (agree_fresh n k).
Qed.
Print Assumptions create_id_agreed_fresh.

(** MPI_Comm_create_group, where only the group's members take part. *)
Theorem create_group_id_agreed_fresh : forall n w g,
  history n w -> clegal n (CCreateGroup g) ->
  exists id, fresh_comm w (cstep w (CCreateGroup g)) (g_tasks g) id g.
Proof.
  intros n w g H L. destruct (history_inv n w H) as (k & I & B).
  exists (agree w (g_tasks g)). pose proof (create_group_creates n w g L) as C.
  destruct L as (NE & ND & LT). split.
  - intros q Hq. cbn [cstep]. rewrite (cr_yes _ _ _ _ _ _ C q (proj2 (memb_in q _) Hq)).
    left. reflexivity.
  - now apply (agree_fresh n k).
Qed.
Print Assumptions create_group_id_agreed_fresh.

(** The members of [ms] (in rank order) whose color is [c]. *)
Definition with_color (ms : list nat) (data : list (Z * Z)) (c : Z) (p : nat) : Prop :=
  exists r, nth_error ms r = Some p /\ exists key, nth_error data r = Some (c, key).

Lemma with_color_iff : forall n ms data c p, clegal n (CSplit ms data) -> (0 <= c)%Z ->
  (with_color ms data c p <-> sp_color ms data p = Some c).
Proof.
  intros n ms data c p (NE & ND & LT & LEN) Hc. unfold with_color, sp_color. split.
  - intros (r & A & key & B). rewrite (index_of_nth p ms r ND A).
    rewrite (nth_error_nth _ _ _ B). cbn [fst]. destruct (Z.ltb_spec c 0); [lia|]. reflexivity.
  - destruct (index_of p ms) as [r|] eqn:E; [|discriminate]. cbv zeta.
    destruct (Z.ltb_spec (fst (nth r data (-1, 0)%Z)) 0); [discriminate|].
    intros F. injection F as F. apply index_of_some in E. exists r. split; auto.
    assert (Hr : r < length data) by (rewrite LEN; apply nth_error_Some; congruence).
    exists (snd (nth r data (-1, 0)%Z)). rewrite <- F, <- surjective_pairing.
    now apply nth_error_nth'.
Qed.

(** MPI_Comm_split: for every color a communicator of exactly the processes with
    that color, under an id new to all callers. *)
Theorem split_id_agreed_fresh : forall n w ms data c p,
  history n w -> clegal n (CSplit ms data) -> (0 <= c)%Z -> with_color ms data c p ->
  exists id g, fresh_comm w (cstep w (CSplit ms data)) ms id g
    /\ forall q, In q (g_tasks g) <-> with_color ms data c q.
Proof.
  intros n w ms data c p H L Hc Hp. destruct (history_inv n w H) as (k & I & B).
  pose proof (proj1 (with_color_iff n ms data c p L Hc) Hp) as Sp.
  exists (agree w ms), (split_group ms c data). split.
  - eapply (creates_fresh n k _ _ _ (sp_who ms data) (sp_grp ms data) p); eauto.
    + apply L.
    + now apply split_creates.
    + destruct L as (_ & _ & LT & _). destruct Hp as (r & A & _). apply LT. eapply nth_error_In; eauto.
    + unfold sp_who. now rewrite Sp.
    + unfold sp_grp. now rewrite Sp.
  - intros q. rewrite (with_color_iff n ms data c q L Hc). now apply (sp_group_in n).
Qed.
Print Assumptions split_id_agreed_fresh.

(** At any time: the communicators of one process have different ids, and a
    communicator id never means different things to two processes that share it. *)
Theorem comm_id_unambiguous : forall n w, history n w ->
  (forall p, p < n -> NoDup (map fst (pr_comms (w p)))) /\
  (forall p q id g1 g2, p < n -> q < n -> In (id, g1) (pr_comms (w p)) ->
     In (id, g2) (pr_comms (w q)) -> In q (g_tasks g1) -> g1 = g2).
Proof.
  intros n w H. destruct (history_inv n w H) as (k & I & B). split; apply I.
Qed.
Print Assumptions comm_id_unambiguous.

Lemma nodup4 : forall l, nodup Nat.eq_dec l = l -> NoDup l.
Proof. intros l H. rewrite <- H. apply NoDup_nodup. Qed.

Example comm_ids_ex :
  let ops := [CSplit [0; 1; 2; 3] [(0, 5); (1, 0); (0, 3); (-1, 0)]%Z;
              CCreate [0; 2] (Tasks [2]); CCreateGroup (Tasks [3; 1])] in
  Forall (clegal 4) ops
  /\ map (fun p => map fst (pr_comms (fold_left cstep ops (proc0 4) p))) [0; 1; 2; 3]
     = [[2; 0; comm_self]; [3; 2; 0; comm_self]; [3; 2; 0; comm_self]; [3; 0; comm_self]]%N.
Proof.
  split; [|vm_compute; reflexivity].
  apply Forall_cons; [|apply Forall_cons; [|apply Forall_cons; [|apply Forall_nil]]];
    cbn [clegal g_tasks]; repeat match goal with |- _ /\ _ => split end;
    try (apply nodup4; vm_compute; reflexivity); try discriminate; try reflexivity;
    cbn [In g_tasks]; try (intros; intuition lia).
Qed.

(** ** C35: order of ranks in a split communicator *)

(** The new ranks, as old ranks: exactly those of color [c], ordered by key and by
    old rank within a key. *)
Theorem split_order : forall c data, (0 <= c)%Z ->
  let color r := fst (nth r data (-1, 0)%Z) in
  let key r := snd (nth r data (0, 0)%Z) in
  Permutation (split_ranks c data) (filter (fun r => (color r =? c)%Z) (seq 0 (length data)))
  /\ StronglySorted (fun a b => (key a < key b)%Z \/ (key a = key b /\ a < b)) (split_ranks c data).
Proof.
  intros c data Hc color key. split; [now apply split_ranks_perm|apply split_ranks_sorted].
Qed.
Print Assumptions split_order.

(** Every caller of color [c] is given a rank, the position of its own task in the
    group it computes; all of them compute the same group. *)
Theorem split_rank_is_position : forall n w ms data c p r,
  clegal n (CSplit ms data) -> (0 <= c)%Z ->
  nth_error ms r = Some p -> fst (nth r data (-1, 0)%Z) = c ->
  exists i g, split_my_rank c data r = Some i /\ g_at g i = Some p
    /\ g = split_group ms c data
    /\ In (agree w ms, g) (pr_comms (comm_split w ms data p)).
Proof.
  intros n w ms data c p r (NE & ND & LT & LEN) Hc Hp Ec.
  assert (Hr : r < length data).
  { rewrite LEN. apply nth_error_Some. congruence. }
  assert (K : In r (split_ranks c data)) by (apply split_ranks_in; auto).
  destruct (index_of_in _ _ K) as (i & Ei). exists i, (split_group ms c data).
  split; [exact Ei|]. split; [|split; [reflexivity|]].
  - unfold split_group. cbn [g_at]. apply index_of_some in Ei.
    rewrite (map_nth_error _ _ _ Ei). f_equal. now apply nth_error_nth.
  - unfold comm_split. rewrite (index_of_nth p ms r ND Hp). cbv zeta. rewrite Ec.
    destruct (Z.ltb_spec c 0); [lia|]. left. reflexivity.
Qed.
Print Assumptions split_rank_is_position.

Example split_ex :
  split_ranks 1 [(1, 7); (0, 0); (1, -2); (1, 7); (1, -2); (-1, 0)]%Z = [2; 4; 0; 3]
  /\ split_my_rank 1 [(1, 7); (0, 0); (1, -2); (1, 7); (1, -2); (-1, 0)]%Z 0 = Some 2.
Proof. split; vm_compute; reflexivity. Qed.

(** ** C36: cartesian communicators *)

Theorem cart_rank_of_coords : forall dims r, pos_dims dims -> (0 <= r < prod dims)%Z ->
  cart_rank dims (set_coords dims r) = r /\ in_grid dims (set_coords dims r).
Proof.
  intros dims r P H. split; [now apply coords_rank|]. apply coords_in_grid; auto; lia.
Qed.
Print Assumptions cart_rank_of_coords.

Theorem cart_coords_of_rank : forall dims cs, in_grid dims cs ->
  set_coords dims (cart_rank dims cs) = cs /\ (0 <= cart_rank dims cs < prod dims)%Z.
Proof. intros dims cs H. split; [now apply rank_coords|now apply rank_range]. Qed.
Print Assumptions cart_coords_of_rank.

(** What MPI asks of a shift: the process whose coordinates are those of [me] except
    that coordinate [dir] is moved by [dis], around the ring if the direction is
    periodic; MPI_PROC_NULL if that leaves a direction that is not periodic. *)
Definition shift_spec (dims : list Z) (periods : list bool) (me : Z) (dir : nat) (dis r : Z) : Prop :=
  let d := nth dir dims 0%Z in
  let c := (nth dir (set_coords dims me) 0 + dis)%Z in
  if nth dir periods false || ((0 <=? c) && (c <? d))%Z then
    (0 <= r < prod dims)%Z
    /\ nth dir (set_coords dims r) 0%Z = (c mod d)%Z
    /\ forall j, j <> dir -> nth j (set_coords dims r) 0%Z = nth j (set_coords dims me) 0%Z
  else r = proc_null.

Lemma shift_target : forall dims me dir d x, pos_dims dims -> (0 <= me < prod dims)%Z ->
  nth_error dims dir = Some d -> (0 <= x < d)%Z ->
  let r := cart_rank dims (set_at (set_coords dims me) dir x) in
  (0 <= r < prod dims)%Z /\ nth dir (set_coords dims r) 0%Z = x
  /\ forall j, j <> dir -> nth j (set_coords dims r) 0%Z = nth j (set_coords dims me) 0%Z.
Proof.
  intros dims me dir d x P M E X r.
  assert (G : in_grid dims (set_at (set_coords dims me) dir x)).
  { eapply set_at_grid; eauto. apply coords_in_grid; auto; lia. }
  assert (L : dir < length (set_coords dims me)).
  { pose proof (coords_in_grid dims me P ltac:(lia)) as K.
    unfold in_grid in K. apply Forall2_length in K || (assert (length dims = length (set_coords dims me)) by (clear -K; induction K; cbn; auto)).
    assert (dir < length dims) by (apply nth_error_Some; congruence). lia. }
  unfold r. destruct (cart_coords_of_rank _ _ G) as (A & B). split; [exact B|].
  rewrite A. split; [rewrite nth_set_at by exact L; now rewrite Nat.eqb_refl|].
  intros j Hj. rewrite nth_set_at by exact L. destruct (Nat.eqb_spec j dir); [congruence|reflexivity].
Qed.

(** Shifts are right as long as a periodic direction is not left by more than one
    turn downwards. Missing: larger negative displacements, see [cart_shift_refuted]. *)
Theorem cart_shift_partial : forall dims periods me dir d dis,
  pos_dims dims -> (0 <= me < prod dims)%Z -> nth_error dims dir = Some d ->
  (nth dir periods false = false \/ - d <= nth dir (set_coords dims me) 0 + dis)%Z ->
  exists r, cart_shift dims periods me dir dis = Some r /\ shift_spec dims periods me dir dis r.
Proof.
  intros dims periods me dir d dis P M E H. unfold cart_shift, shift_spec. rewrite E. cbv zeta.
  assert (Hd : (0 < d)%Z) by (apply P; eapply nth_error_In; eauto).
  rewrite (nth_error_nth _ _ 0%Z E).
  set (c := (nth dir (set_coords dims me) 0 + dis)%Z) in *.
  destruct (Z.leb_spec d c); [|destruct (Z.ltb_spec c 0)].
  - destruct (nth dir periods false); cbn [orb].
    + eexists. split; [reflexivity|]. rewrite Z.rem_mod_nonneg by lia.
      apply (shift_target dims me dir d); auto. apply Z.mod_pos_bound; auto.
    + destruct (Z.leb_spec 0 c); [|lia]. destruct (Z.ltb_spec c d); [lia|]. cbn [andb]. eauto.
  - destruct (nth dir periods false); cbn [orb].
    + destruct H as [H|H]; [discriminate|].
      eexists. split; [reflexivity|].
      replace (Z.rem (d + c) d) with (c mod d)%Z.
      * apply (shift_target dims me dir d); auto. apply Z.mod_pos_bound; auto.
      * rewrite Z.rem_mod_nonneg by lia.
        replace (d + c)%Z with (c + 1 * d)%Z by lia. now rewrite Z.mod_add by lia.
    + destruct (Z.leb_spec 0 c); [lia|]. cbn [andb]. eauto.
  - destruct (Z.leb_spec 0 c); [|lia]. destruct (Z.ltb_spec c d); [|lia]. cbn [andb].
    rewrite orb_true_r. eexists. split; [reflexivity|]. rewrite (Z.mod_small c d) by lia.
    apply (shift_target dims me dir d); auto.
Qed.
Print Assumptions cart_shift_partial.

(** In particular MPI_Cart_shift is right for every displacement of at most one
    full turn in either direction. *)
Corollary cart_shift_one_turn_partial : forall dims periods me dir d disp,
  pos_dims dims -> (0 <= me < prod dims)%Z -> nth_error dims dir = Some d ->
  (- d <= disp <= d)%Z ->
  exists src dst, api_cart_shift dims periods me dir disp = (Some src, Some dst)
    /\ shift_spec dims periods me dir (- disp) src /\ shift_spec dims periods me dir disp dst.
Proof.
  intros dims periods me dir d disp P M E B.
  assert (C : (0 <= nth dir (set_coords dims me) 0)%Z).
  { pose proof (coords_in_grid dims me P ltac:(lia)) as G. clear - G.
    revert dir. induction G as [|d0 c t u H G IH]; intros [|dir]; cbn [nth]; auto; lia. }
  destruct (cart_shift_partial dims periods me dir d (- disp) P M E) as (s & A1 & A2); [right; lia|].
  destruct (cart_shift_partial dims periods me dir d disp P M E) as (t & B1 & B2); [right; lia|].
  exists s, t. unfold api_cart_shift. rewrite A1, B1. auto.
Qed.
Print Assumptions cart_shift_one_turn_partial.

Example cart_ex :
  pos_dims [4; 3; 2]%Z /\ (0 <= 17 < prod [4; 3; 2]%Z)%Z
  /\ set_coords [4; 3; 2]%Z 17 = [1; 1; 1]%Z
  /\ api_cart_shift [4; 3; 2]%Z [true; false; true] 17 0 2 = (Some 19%Z, Some 19%Z)
  /\ api_cart_shift [4; 3; 2]%Z [true; false; true] 17 1 2 = (Some proc_null, Some proc_null)
  /\ api_cart_shift [4; 3; 2]%Z [true; false; true] 17 1 1 = (Some 13%Z, Some 21%Z).
Proof.
  repeat split; try (vm_compute; congruence); try reflexivity.
  intros x [<-|[<-|[<-|[]]]]; lia.
Qed.

(** On a periodic ring of 3 a shift by -4 gives rank -1 (which is MPI_PROC_NULL). *)
Theorem cart_shift_refuted : exists dims periods me dir dis r,
  pos_dims dims /\ (0 <= me < prod dims)%Z /\ nth_error dims dir <> None
  /\ cart_shift dims periods me dir dis = Some r /\ ~ shift_spec dims periods me dir dis r.
Proof.
  exists [3%Z], [true], 0%Z, 0, (-4)%Z, (-1)%Z. repeat split; try (cbn; congruence); try (cbn; lia).
  - intros x [<-|[]]. lia.
Qed.
Print Assumptions cart_shift_refuted.

(** ** C81: MPI's conventions for cartesian ranks *)

(** MPI numbers the processes of a grid in row-major order, the last coordinate
    running fastest, and reduces coordinates of periodic directions. *)
Definition mpi_cart_rank (dims : list Z) (periods : list bool) (coords : list Z) : Z :=
  fold_left (fun (r : Z) (x : Z * bool * Z) => r * fst (fst x) + (if snd (fst x) then snd x mod fst (fst x) else snd x))%Z
    (combine (combine dims periods) coords) 0%Z.

Theorem cart_convention_partial : forall d p c, (0 <= c < d)%Z ->
  cart_rank [d] [c] = mpi_cart_rank [d] [p] [c].
Proof.
  intros d p c H. unfold mpi_cart_rank, cart_rank. cbn [combine fold_left fst snd rank_from].
  destruct p; [rewrite Z.mod_small by lia|]; lia.
Qed.
Print Assumptions cart_convention_partial.

Example cart_convention_ex : cart_rank [7]%Z [4]%Z = 4%Z. Proof. reflexivity. Qed.

Theorem cart_row_major_refuted : exists dims periods cs,
  in_grid dims cs /\ length periods = length dims
  /\ cart_rank dims cs <> mpi_cart_rank dims periods cs.
Proof.
  exists [2; 3]%Z, [false; false], [0; 1]%Z.
  split; [repeat constructor; lia|]. split; [reflexivity|]. vm_compute. discriminate.
Qed.
Print Assumptions cart_row_major_refuted.

Theorem cart_rank_wrap_refuted : exists d c,
  (0 < d)%Z /\ cart_rank [d] [c] <> mpi_cart_rank [d] [true] [c]
  /\ ~ (0 <= cart_rank [d] [c] < d)%Z.
Proof. exists 4%Z, 5%Z. vm_compute. repeat split; try discriminate. intros [_ H]. discriminate H. Qed.
Print Assumptions cart_rank_wrap_refuted.

(** ** C38: tags of collectives *)

(** The [i]-th collective on communicator [a] and the [j]-th on communicator [b]
    have the same tag exactly if the ids agree in 16 bits and the call numbers agree
    in 16 bits. *)
Theorem collective_tags_equal : forall a b i j,
  nth_tag (new_comm_tags a) i = nth_tag (new_comm_tags b) j <->
  (a mod 65536 = b mod 65536 /\ N.of_nat i mod 65536 = N.of_nat j mod 65536)%N.
Proof.
  intros a b i j. unfold new_comm_tags. rewrite !nth_tag_eq by lia. rewrite !tag16_add.
  pose proof (N.mod_lt (100 + N.of_nat i) 65536 ltac:(lia)) as A.
  pose proof (N.mod_lt (100 + N.of_nat j) 65536 ltac:(lia)) as B.
  pose proof (N.mod_lt a 65536 ltac:(lia)) as A'. pose proof (N.mod_lt b 65536 ltac:(lia)) as B'.
  split.
  - intros E. assert (a mod 65536 = b mod 65536 /\ (100 + N.of_nat i) mod 65536 = (100 + N.of_nat j) mod 65536)%N
      as (E1 & E2).
    { revert E A B A' B'. generalize (a mod 65536)%N (b mod 65536)%N
        ((100 + N.of_nat i) mod 65536)%N ((100 + N.of_nat j) mod 65536)%N. lia. }
    split; [exact E1|]. clear E A B E1.
    rewrite (N.div_mod (N.of_nat i) 65536), (N.div_mod (N.of_nat j) 65536) in E2 by lia.
    set (x := (N.of_nat i mod 65536)%N) in *. set (y := (N.of_nat j mod 65536)%N) in *.
    assert (x < 65536)%N by (apply N.mod_lt; lia). assert (y < 65536)%N by (apply N.mod_lt; lia).
    replace (100 + (65536 * (N.of_nat i / 65536) + x))%N with (100 + x + (N.of_nat i / 65536) * 65536)%N in E2 by lia.
    replace (100 + (65536 * (N.of_nat j / 65536) + y))%N with (100 + y + (N.of_nat j / 65536) * 65536)%N in E2 by lia.
    rewrite !N.mod_add in E2 by lia.
    destruct (N.ltb_spec (100 + x) 65536); destruct (N.ltb_spec (100 + y) 65536);
      repeat rewrite (N.mod_small (100 + x)) in E2 by lia;
      repeat rewrite (N.mod_small (100 + y)) in E2 by lia; try lia.
    + replace (100 + y)%N with (100 + y - 65536 + 1 * 65536)%N in E2 by lia.
      rewrite N.mod_add, N.mod_small in E2 by lia. lia.
    + replace (100 + x)%N with (100 + x - 65536 + 1 * 65536)%N in E2 by lia.
      rewrite N.mod_add, N.mod_small in E2 by lia. lia.
    + replace (100 + y)%N with (100 + y - 65536 + 1 * 65536)%N in E2 by lia.
      replace (100 + x)%N with (100 + x - 65536 + 1 * 65536)%N in E2 by lia.
      rewrite !N.mod_add, !N.mod_small in E2 by lia. lia.
  - intros (E1 & E2). rewrite E1. f_equal.
    rewrite (N.add_mod 100 (N.of_nat i)), (N.add_mod 100 (N.of_nat j)), E2 by lia. reflexivity.
Qed.
Print Assumptions collective_tags_equal.

(** So tags are unique among collectives on communicators with ids below 65536 if no
    two calls on one communicator that may be in flight together are 65536 or more
    calls apart. Missing: longer distances, larger ids and the temporary ids of
    MPI_Comm_create_group, see the refutations. *)
Theorem collective_tags_unique_partial : forall a b i j,
  (a < 65536)%N -> (b < 65536)%N -> i <= j -> (N.of_nat (j - i) < 65536)%N ->
  (a, i) <> (b, j) ->
  nth_tag (new_comm_tags a) i <> nth_tag (new_comm_tags b) j.
Proof.
  intros a b i j Ha Hb L D NE E. apply collective_tags_equal in E. destruct E as (E1 & E2).
  rewrite !N.mod_small in E1 by lia. apply NE. subst b. f_equal.
  destruct (Nat.eq_dec i j) as [|N]; auto. exfalso.
  pose proof (N.div_mod (N.of_nat i) 65536 ltac:(lia)). pose proof (N.div_mod (N.of_nat j) 65536 ltac:(lia)).
  rewrite E2 in H.
  assert (N.of_nat j - N.of_nat i = 65536 * (N.of_nat j / 65536 - N.of_nat i / 65536))%N by lia.
  assert (N.of_nat j / 65536 - N.of_nat i / 65536 = 0)%N; lia.
Qed.
Print Assumptions collective_tags_unique_partial.

Example collective_tags_ex :
  map (nth_tag (new_comm_tags 3)) [0; 1; 2] = [196708; 196709; 196710]%N
  /\ nth_tag (new_comm_tags 3) 1 <> nth_tag (new_comm_tags 2) 1.
Proof. split; [vm_compute; reflexivity|vm_compute; discriminate]. Qed.

(** Calls 65536 apart on the world communicator, or the same calls on communicators
    2 and 65538, share a tag. *)
Theorem collective_tags_wrap_refuted :
  (exists a i j, i <> j /\ nth_tag (new_comm_tags a) i = nth_tag (new_comm_tags a) j)
  /\ (exists a b i, a <> b /\ nth_tag (new_comm_tags a) i = nth_tag (new_comm_tags b) i).
Proof.
  split.
  - exists 0%N, 0, (N.to_nat 65536). split.
    + intros K. apply (f_equal N.of_nat) in K. rewrite N2Nat.id in K. discriminate K.
    + apply collective_tags_equal. rewrite N2Nat.id. split; reflexivity.
  - exists 2%N, 65538%N, 0. split; [discriminate|]. apply collective_tags_equal. split; reflexivity.
Qed.
Print Assumptions collective_tags_wrap_refuted.

(** Two MPI_Comm_create_group calls on one communicator, for different groups with a
    common member, run their agreement under the same tag; and it is the tag of the
    first collective on an ordinary communicator. *)
Theorem create_group_tags_refuted : forall caller : N,
  (exists g1 g2 p, g1 <> g2 /\ In p (g_tasks g1) /\ In p (g_tasks g2)
     /\ agreement_tag caller g1 = agreement_tag caller g2)
  /\ exists other g, other <> temp_id caller /\ (other < 65536)%N
     /\ nth_tag (new_comm_tags other) 0 = agreement_tag caller g.
Proof.
  intros caller. split.
  - exists (Tasks [0; 1]), (Tasks [0; 2]), 0. split; [discriminate|].
    split; [cbn; auto|]. split; [cbn; auto|reflexivity].
  - exists (temp_id caller mod 65536)%N, (Tasks [0]).
    assert (H : (temp_id caller mod 65536 < 65536)%N) by (apply N.mod_lt; lia).
    split; [unfold temp_id in *; lia|]. split; [exact H|].
    apply collective_tags_equal. split; [apply N.mod_mod; lia|reflexivity].
Qed.
Print Assumptions create_group_tags_refuted.

(** ** C82: lifetime of groups *)

(** Every communicator's group object exists. *)
Definition groups_alive (h : heap) : Prop :=
  forall c g del, In (c, (g, del)) (h_comms h) -> In g (h_alive h).

(** Calls that are safe: no MPI_Cart_create; MPI_Group_free only for groups no
    communicator was made of; no communicator made from the group of a split one. *)
Definition hsafe (h : heap) (o : hop) : Prop :=
  match o with
  | HIncl | HSplit | HCommFree _ => True
  | HCreate g => In g (h_alive h) /\ forall c, ~ In (c, (g, true)) (h_comms h)
  | HDup c => forall g del, hfind c (h_comms h) = Some (g, del) -> del = false
      /\ forall c', ~ In (c', (g, true)) (h_comms h)
  | HCart _ => False
  | HGroupFree g => forall c del, ~ In (c, (g, del)) (h_comms h)
  end.

Inductive hsteps : heap -> Prop :=
| hs_init : hsteps heap0
| hs_step : forall h o, hsteps h -> hsafe h o -> hsteps (hstep h o).

Lemma hfind_in : forall c l e, hfind c l = Some e -> In (c, e) l.
Proof.
  induction l as [|[c' e'] t IH]; intros e H; cbn [hfind] in H; [discriminate|].
  destruct (Nat.eqb_spec c' c) as [->|N]; [injection H as ->; left; reflexivity|].
  right. now apply IH.
Qed.

Lemma in_hdel : forall x g l, In x (hdel g l) <-> In x l /\ x <> g.
Proof.
  intros x g l. unfold hdel. rewrite filter_In, negb_true_iff, Nat.eqb_neq. tauto.
Qed.

Record hinv (h : heap) : Prop := {
  hi_alive : groups_alive h;
  hi_lt : forall g, In g (h_alive h) -> g < h_ngrp h;
  hi_own : forall c c' g del, In (c, (g, true)) (h_comms h) -> In (c', (g, del)) (h_comms h) -> c = c';
  hi_hd : forall c e, In (c, e) (h_comms h) -> c < h_ncomm h
}.

Lemma hsteps_inv : forall h, hsteps h -> hinv h.
Proof.
  intros h H. induction H as [|h o H I S].
  - constructor; cbn.
    + intros c g del [E|[]]. injection E as <- <- <-. left. reflexivity.
    + intros g [<-|[]]. lia.
    + intros c c' g del [E|[]]. discriminate E.
    + intros c e [E|[]]. injection E as <- <-. lia.
  - assert (LTg : forall c g del, In (c, (g, del)) (h_comms h) -> g < h_ngrp h).
    { intros c g del K. apply (hi_lt h I). eapply (hi_alive h I); eauto. }
    assert (ADD : forall g, In g (h_alive h) -> (forall c, ~ In (c, (g, true)) (h_comms h)) ->
                  hinv (hadd h g false)).
    { intros g A O. constructor; cbn [hadd h_alive h_comms h_ngrp h_ncomm].
      - intros c g' del [E|E]; [injection E as <- <- <-; auto|]. eapply (hi_alive h I); eauto.
      - apply (hi_lt h I).
      - intros c c' g' del [E|E] [F|F].
        + discriminate E.
        + discriminate E.
        + injection F as <- <- <-. exfalso. eapply O; eauto.
        + eapply (hi_own h I); eauto.
      - intros c e [E|E]; [injection E as <- <-; lia|]. apply (hi_hd h I) in E. lia. }
    destruct o as [|g|c|c| |g|c]; cbn [hstep hsafe] in *.
    + constructor; cbn [h_alive h_comms h_ngrp h_ncomm].
      * intros c g del K. right. eapply (hi_alive h I); eauto.
      * intros g [<-|K]; [lia|]. apply (hi_lt h I) in K. lia.
      * apply (hi_own h I).
      * apply (hi_hd h I).
    + destruct S as (A & O). now apply ADD.
    + destruct (hfind c (h_comms h)) as [[g del]|] eqn:E; [|exact I].
      destruct (S g del eq_refl) as (-> & O). apply ADD; auto.
      apply hfind_in in E. eapply (hi_alive h I); eauto.
    + contradiction.
    + constructor; cbn [hadd h_alive h_comms h_ngrp h_ncomm].
      * intros c g del [E|E]; [injection E as <- <- <-; left; reflexivity|].
        right. eapply (hi_alive h I); eauto.
      * intros g [<-|K]; [lia|]. apply (hi_lt h I) in K. lia.
      * intros c c' g del [E|E] [F|F].
        -- congruence.
        -- injection E as <- <-. apply LTg in F. lia.
        -- injection F as <- <- <-. apply LTg in E. lia.
        -- eapply (hi_own h I); eauto.
      * intros c e [E|E]; [injection E as <- <-; lia|]. apply (hi_hd h I) in E. lia.
    + destruct (g =? 0) eqn:Z; [exact I|]. constructor; cbn [h_alive h_comms h_ngrp h_ncomm].
      * intros c g' del K. apply in_hdel. split; [eapply (hi_alive h I); eauto|].
        intros ->. eapply S; eauto.
      * intros g' K. apply in_hdel in K. apply (hi_lt h I). tauto.
      * apply (hi_own h I).
      * apply (hi_hd h I).
    + destruct (hfind c (h_comms h)) as [[g del]|] eqn:E; [|exact I].
      apply hfind_in in E. constructor; cbn [h_alive h_comms h_ngrp h_ncomm].
      * intros c' g' del' K. apply filter_In in K. destruct K as (K & N).
        cbn [fst] in N. apply negb_true_iff, Nat.eqb_neq in N.
        pose proof (hi_alive h I c' g' del' K) as A. destruct del; auto.
        apply in_hdel. split; auto. intros ->. apply N. symmetry. eapply (hi_own h I); eauto.
      * intros g' K. apply (hi_lt h I). destruct del; auto. apply in_hdel in K. tauto.
      * intros c1 c2 g' del' K1 K2. apply filter_In in K1. apply filter_In in K2.
        eapply (hi_own h I); [apply K1|apply K2].
      * intros c' e K. apply filter_In in K. eapply (hi_hd h I). apply K.
Qed.

(** Missing: the calls excluded by [hsafe], see the refutations. *)
Theorem groups_alive_partial : forall h, hsteps h -> groups_alive h.
Proof. intros h H. apply hsteps_inv, H. Qed.
Print Assumptions groups_alive_partial.

Example groups_alive_ex : hsteps (fold_left hstep [HIncl; HCreate 1; HDup 1; HSplit; HCommFree 3; HDup 0] heap0)
  /\ h_alive (fold_left hstep [HIncl; HCreate 1; HDup 1; HSplit; HCommFree 3; HDup 0] heap0) = [1; 0].
Proof.
  split; [|reflexivity]. cbn [fold_left].
  repeat (apply hs_step; [|cbn; try exact Logic.I]); try exact hs_init.
  - split; [auto|]. intros c. cbn. intuition congruence.
  - intros g del E. injection E as <- <-. split; auto. intros c'. cbn. intuition congruence.
  - intros g del E. injection E as <- <-. split; auto. intros c'. cbn. intuition congruence.
Qed.

(** The usual idiom: make a group, make a communicator of it, free the group. The
    communicator is left with a deleted group. *)
Theorem group_free_dangling_refuted : exists ops c g del,
  ops = [HIncl; HCreate 1; HGroupFree 1]
  /\ In (c, (g, del)) (h_comms (fold_left hstep ops heap0))
  /\ ~ In g (h_alive (fold_left hstep ops heap0)).
Proof.
  eexists _, 1, 1, false. split; [reflexivity|]. cbn. split; [left; reflexivity|]. intuition discriminate.
Qed.
Print Assumptions group_free_dangling_refuted.

(** Freeing a cartesian communicator deletes the group of the world communicator. *)
Theorem cart_free_dangling_refuted : exists ops c g del,
  ops = [HCart 0; HCommFree 1]
  /\ In (c, (g, del)) (h_comms (fold_left hstep ops heap0))
  /\ ~ In g (h_alive (fold_left hstep ops heap0)).
Proof.
  eexists _, 0, 0, false. split; [reflexivity|]. cbn. split; [left; reflexivity|]. intuition discriminate.
Qed.
Print Assumptions cart_free_dangling_refuted.

(** Freeing a split communicator deletes the group of its duplicate. *)
Theorem split_dup_dangling_refuted : exists ops c g del,
  ops = [HSplit; HDup 1; HCommFree 1]
  /\ In (c, (g, del)) (h_comms (fold_left hstep ops heap0))
  /\ ~ In g (h_alive (fold_left hstep ops heap0)).
Proof.
  eexists _, 2, 1, false. split; [reflexivity|]. cbn. split; [left; reflexivity|]. intuition discriminate.
Qed.
Print Assumptions split_dup_dangling_refuted.

(** ** C83: ranks in groups *)

(** Position and task are inverse for every group of distinct processes. *)
Theorem group_rank_inverse : forall g i t, NoDup (g_tasks g) -> i < g_size g ->
  (g_at g i = Some t -> g_rank g t = Some i /\ In t (g_tasks g))
  /\ (In t (g_tasks g) -> exists j, g_rank g t = Some j /\ j < g_size g /\ g_at g j = Some t)
  /\ (forall l, g = Tasks l -> ~ In t l -> g_rank g t = None).
Proof.
  intros [n|l] i t ND Hi; cbn [g_at g_rank g_size g_tasks] in *.
  - split; [|split].
    + intros E. injection E as ->. split; auto. apply in_seq. lia.
    + intros H. apply in_seq in H. exists t. split; [reflexivity|]. split; [lia|reflexivity].
    + intros l E. discriminate E.
  - split; [|split].
    + intros E. split; [now apply index_of_nth|]. eapply nth_error_In; eauto.
    + intros H. destruct (index_of_in t l H) as (j & E). exists j. split; auto.
      apply index_of_some in E. split; auto. apply nth_error_Some. congruence.
    + intros l' E. injection E as <-. intros H. destruct (index_of t l) eqn:F; auto.
      apply index_of_some in F. exfalso. apply H. eapply nth_error_In; eauto.
Qed.
Print Assumptions group_rank_inverse.

(** Translated ranks denote the same process; processes not in the other group
    translate to MPI_UNDEFINED. (The world group contains every process.) *)
Theorem translate_same_process : forall g1 g2 i t,
  NoDup (g_tasks g2) -> g_at g1 i = Some t ->
  (forall j, translate g1 g2 (Some i) = Some (Some j) -> g_at g2 j = Some t)
  /\ (translate g1 g2 (Some i) = Some None <-> (~ In t (g_tasks g2) /\ exists l, g2 = Tasks l))
  /\ translate g1 g2 None = None.
Proof.
  intros g1 g2 i t ND E.
  assert (T : translate g1 g2 (Some i) = Some (g_rank g2 t)).
  { unfold translate. destruct g1 as [n|l]; cbn [g_at] in E.
    - injection E as ->. reflexivity.
    - now rewrite E. }
  rewrite T. split; [|split; [|reflexivity]].
  - intros j H. injection H as H. destruct g2 as [n|l]; cbn [g_at g_rank] in *.
    + congruence.
    + now apply index_of_some.
  - destruct g2 as [n|l]; cbn [g_at g_rank g_tasks] in *.
    + split; [discriminate|]. intros (_ & l & K). discriminate K.
    + split.
      * intros K. injection K as K. split; [now apply index_of_none|eauto].
      * intros (K & _). destruct (index_of t l) eqn:F; auto.
        apply index_of_some in F. exfalso. apply K. eapply nth_error_In; eauto.
Qed.
Print Assumptions translate_same_process.

(** MPI_Group_incl picks the processes of the given ranks, in the given order. *)
Theorem group_incl_spec : forall g ranks g', group_incl g ranks = Some g' ->
  length (g_tasks g') = length ranks /\
  forall i r, nth_error ranks i = Some r -> exists t, g_at g' i = Some t /\ g_at g r = Some t.
Proof.
  intros g ranks g' H. unfold group_incl in H. destruct (g_size g <? length ranks); [discriminate|].
  destruct (all_some (map (g_at g) ranks)) as [l|] eqn:E; [|discriminate]. injection H as <-.
  apply all_some_spec in E. cbn [g_tasks g_at].
  assert (L : length l = length ranks) by (rewrite <- (map_length Some l), <- E; apply map_length).
  split; auto. intros i r Hr.
  assert (K : nth_error (map (g_at g) ranks) i = Some (g_at g r)) by (now apply map_nth_error).
  rewrite E in K. destruct (nth_error l i) as [t|] eqn:F.
  - exists t. split; auto. rewrite (map_nth_error Some _ _ F) in K. congruence.
  - exfalso. apply nth_error_None in F. assert (i < length ranks) by (apply nth_error_Some; congruence). lia.
Qed.
Print Assumptions group_incl_spec.

Lemma range_up_nth : forall fuel rank stop stride l,
  (0 < stride)%Z -> range_up fuel rank stop stride = Some l ->
  forall k x, nth_error l k = Some x <-> (x = rank + Z.of_nat k * stride /\ x <= stop)%Z.
Proof.
  induction fuel as [|f IH]; intros rank stop stride l Hs H k x; cbn [range_up] in H; [discriminate|].
  destruct (Z.leb_spec rank stop) as [L|L].
  - destruct (range_up f (rank + stride) stop stride) as [t|] eqn:E; [|discriminate].
    injection H as <-. destruct k as [|k]; cbn [nth_error].
    + split; [intros F; injection F as <-; lia|]. intros (-> & _). f_equal. lia.
    + rewrite (IH _ _ _ _ Hs E k x). lia.
  - injection H as <-. assert (N : nth_error (@nil Z) k = None) by (now destruct k). rewrite N.
    split; [discriminate|]. intros (-> & K). nia.
Qed.

Lemma range_down_nth : forall fuel rank stop stride l,
  (stride < 0)%Z -> range_down fuel rank stop stride = Some l ->
  forall k x, nth_error l k = Some x <-> (x = rank + Z.of_nat k * stride /\ stop <= x)%Z.
Proof.
  induction fuel as [|f IH]; intros rank stop stride l Hs H k x; cbn [range_down] in H; [discriminate|].
  destruct (Z.leb_spec stop rank) as [L|L].
  - destruct (range_down f (rank + stride) stop stride) as [t|] eqn:E; [|discriminate].
    injection H as <-. destruct k as [|k]; cbn [nth_error].
    + split; [intros F; injection F as <-; lia|]. intros (-> & _). f_equal. lia.
    + rewrite (IH _ _ _ _ Hs E k x). lia.
  - injection H as <-. assert (N : nth_error (@nil Z) k = None) by (now destruct k). rewrite N.
    split; [discriminate|]. intros (-> & K). nia.
Qed.

(** The ranks of a range triple: [start], [start + stride], ... up to [stop], in
    this order. *)
Theorem range_incl_spec : forall start stop stride, stride <> 0%Z ->
  ((0 < stride /\ start <= stop) \/ (stride < 0 /\ stop <= start))%Z ->
  exists fuel l, range_ranks fuel start stop stride = Some l /\
  forall k x, nth_error l k = Some x <->
    (x = start + Z.of_nat k * stride /\ (start <= x <= stop \/ stop <= x <= start))%Z.
Proof.
  intros start stop stride NZ H. exists (S (S (Z.to_nat (Z.abs (stop - start))))).
  unfold range_ranks. destruct H as [(H1 & H2)|(H1 & H2)].
  - destruct (Z.ltb_spec stride 0); [lia|]. destruct (Z.ltb_spec stop start); [lia|].
    destruct (range_up_total (S (S (Z.to_nat (Z.abs (stop - start))))) start stop stride) as (l & E); auto; try lia.
    exists l. split; auto. intros k x. rewrite (range_up_nth _ _ _ _ _ H1 E k x).
    assert (0 <= Z.of_nat k * stride)%Z by nia. split; intros (A & B); split; try exact A; lia.
  - destruct (Z.ltb_spec stride 0); [|lia]. destruct (Z.ltb_spec start stop); [lia|].
    destruct (range_down_total (S (S (Z.to_nat (Z.abs (stop - start))))) start stop stride) as (l & E); auto; try lia.
    exists l. split; auto. intros k x. rewrite (range_down_nth _ _ _ _ _ H1 E k x).
    assert (Z.of_nat k * stride <= 0)%Z by nia. split; intros (A & B); split; try exact A; lia.
Qed.
Print Assumptions range_incl_spec.

Example groups_ex :
  group_incl (World 6) [5; 1; 3] = Some (Tasks [5; 1; 3])
  /\ translate (Tasks [5; 1; 3]) (Tasks [3; 4; 5]) (Some 0) = Some (Some 2)
  /\ translate (Tasks [5; 1; 3]) (Tasks [3; 4; 5]) (Some 1) = Some None
  /\ range_ranks 10 7 1 (-2) = Some [7; 5; 3; 1]%Z.
Proof. repeat split. Qed.
