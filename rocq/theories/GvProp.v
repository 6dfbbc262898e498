(** Global variables of simulated processes: properties C138 and C139. *)
From Coq Require Import List Arith Bool Lia Sorted.
From Verif Require Import GvModel GvSpec GvProof.
Import ListNotations.

(** *** C138: the places of variables *)

(** No two variables share a byte, whatever was declared, loaded or started in between. *)
Theorem global_slots_disjoint : forall a l c x y i j, run l (ctx0 a) = Ok c ->
  x < length (vars c) -> y < length (vars c) -> i < snd (nth x (vars c) (0, 0)) -> j < snd (nth y (vars c) (0, 0)) ->
  fst (nth x (vars c) (0, 0)) + i = fst (nth y (vars c) (0, 0)) + j -> x = y /\ i = j.
Proof.
  intros a l c x y i j E X Y I J Q. eapply one_slot; eauto. eapply slots_run; [apply slots0|exact E].
Qed.
(** Variables are aligned on four bytes. *)
Theorem global_aligned_partial : forall a l c x, run l (ctx0 a) = Ok c -> x < length (vars c) ->
  fst (nth x (vars c) (0, 0)) mod 4 = 0.
Proof.
  intros a l c x E X. apply (s_four c (slots_run _ _ _ (slots0 a) E)), X.
Qed.
(** ... but not on eight: a double behind an int. *)
Theorem global_aligned_refuted : exists a l c, 8 <= a /\ run l (ctx0 a) = Ok c /\ vars c = [(0, 4); (4, 8)].
Proof. exists 16, [Declare 4 None; Declare 8 None]. eexists. split; [lia|]. split; reflexivity. Qed.
(** Initialisation functions are called in the order of the places. *)
Theorem global_init_order : forall a l c, run l (ctx0 a) = Ok c -> StronglySorted lt (map fst (fns c)).
Proof. intros a l c E. apply (s_sorted c (slots_run _ _ _ (slots0 a) E)). Qed.
Theorem global_declared_order : forall a l c x y, run l (ctx0 a) = Ok c -> x < y < length (vars c) ->
  fst (nth x (vars c) (0, 0)) + snd (nth x (vars c) (0, 0)) <= fst (nth y (vars c) (0, 0)).
Proof. intros a l c x y E L. apply (s_sep c (slots_run _ _ _ (slots0 a) E)), L. Qed.

(** *** C139: every process has its own variables *)

(** A program never touches foreign memory, and each process sees of each variable what it would see alone. *)
Theorem globals_private_partial : forall a l, 0 < a -> Forall plain l -> fair l own0 ->
  run l (ctx0 a) <> Bad /\ run l (ctx0 a) <> Forever /\
  forall c, run l (ctx0 a) = Ok c -> let s := orun l own0 in
    length (vars c) = length (sizes s) /\
    forall p x i, In p (alive s) -> x < length (sizes s) -> i < nth x (sizes s) 0 -> read c p x i = value s p x i.
Proof.
  intros a l Z P F. pose proof (run_inv l _ _ (inv0 a Z) P F) as D.
  destruct (run l (ctx0 a)) as [c| | |]; cbn [done] in D; try contradiction; (split; [discriminate|]; split; [discriminate|]);
    intros c' E; [|discriminate]. injection E as <-. cbn zeta.
  pose proof (sizes_len c _ (i_sizes _ _ D)) as LN. split; [lia|]. intros p x i A X I.
  rewrite LN in X. rewrite <- (sizes_nth c _ x (i_sizes _ _ D) X) in I.
  destruct (i_alive _ _ D) as (_ & M & _). rewrite <- M in A. apply seg_in in A as [s A].
  unfold read. rewrite A. apply (i_segs _ _ D p s A); auto.
Qed.
(** In particular a process sees what another writes nowhere. *)
Lemma fair_app : forall l1 l2 s, fair (l1 ++ l2) s <-> fair l1 s /\ fair l2 (orun l1 s).
Proof.
  induction l1 as [|o l1 IH]; intros l2 s; simpl; [tauto|]. rewrite IH. unfold orun. simpl. tauto.
Qed.
Lemma run_app : forall l1 l2 c, run (l1 ++ l2) c = match run l1 c with Ok c' => run l2 c' | r => r end.
Proof. induction l1 as [|o l1 IH]; intros l2 c; simpl; auto. destruct (step o c); auto. Qed.
Theorem globals_separate : forall a l p x i w c c', 0 < a -> Forall plain l -> fair (l ++ [Store p x i w]) own0 ->
  run l (ctx0 a) = Ok c -> store p x i w c = Ok c' -> forall q y j, In q (alive (orun l own0)) ->
  y < length (vars c) -> j < snd (nth y (vars c) (0, 0)) ->
  read c' q y j = if (q =? p) && (y =? x) && (j =? i) then Some w else read c q y j.
Proof.
  intros a l p x i w c c' Z P F E T q y j Q Y J.
  assert (P2 : Forall plain (l ++ [Store p x i w])) by (apply Forall_app; split; [exact P|repeat constructor]).
  destruct (globals_private_partial a _ Z P2 F) as (_ & _ & H2).
  pose proof (proj1 (proj1 (fair_app _ _ _) F)) as F1.
  destruct (globals_private_partial a l Z P F1) as (_ & _ & H1). destruct (H1 c E) as [L1 R1].
  assert (E2 : run (l ++ [Store p x i w]) (ctx0 a) = Ok c') by (rewrite run_app, E; cbn [run step]; now rewrite T).
  destruct (H2 c' E2) as [L2 R2].
  assert (O : orun (l ++ [Store p x i w]) own0 = ostep (Store p x i w) (orun l own0)).
  { unfold orun. rewrite fold_left_app. reflexivity. }
  assert (J' : j < nth y (sizes (orun l own0)) 0).
  { pose proof (run_inv l _ _ (inv0 a Z) P F1) as D. rewrite E in D. cbn [done] in D.
    now rewrite <- (sizes_nth c _ y (i_sizes _ _ D) Y). }
  rewrite O in R2. cbn [ostep sizes alive value] in R2. rewrite (R2 q y j Q ltac:(lia) J').
  rewrite (R1 q y j Q ltac:(lia) J'). unfold upd.
  destruct (Nat.eqb_spec q p) as [->|]; cbn [andb]; auto. destruct (Nat.eqb_spec y x) as [->|]; cbn [andb]; auto.
Qed.
(** A process starts with the declared values. *)
Theorem globals_initial : forall a l p c x v i, 0 < a -> Forall plain l -> fair (l ++ [Start p None]) own0 ->
  run (l ++ [Start p None]) (ctx0 a) = Ok c -> x < length (vars c) -> given (orun l own0) x = Some v -> i < length v ->
  read c p x i = nth i v None.
Proof.
  intros a l p c x v i Z P F E X G I.
  assert (P2 : Forall plain (l ++ [Start p None])) by (apply Forall_app; split; [exact P|repeat constructor]).
  destruct (globals_private_partial a _ Z P2 F) as (_ & _ & H). destruct (H c E) as [L R].
  assert (O : orun (l ++ [Start p None]) own0 = ostep (Start p None) (orun l own0)).
  { unfold orun. rewrite fold_left_app. reflexivity. }
  pose proof (run_inv _ _ _ (inv0 a Z) P2 F) as D. rewrite E in D. cbn [done] in D.
  assert (IN : i < nth x (sizes (orun (l ++ [Start p None]) own0)) 0).
  { rewrite <- (sizes_nth c _ x (i_sizes _ _ D) X). eapply Nat.lt_le_trans; [exact I|]. apply (i_fit _ _ D); auto.
    rewrite O. exact G. }
  rewrite R; [|rewrite O; simpl; auto|lia|exact IN]. rewrite O. cbn [ostep value]. rewrite upd_same, G.
  unfold over. destruct (Nat.ltb_spec i (length v)); [auto|lia].
Qed.
(** Variables can be declared whenever no process runs. *)
Theorem globals_declare_idle : forall a l n v, 0 < a -> Forall plain l -> fair (l ++ [Declare n v]) own0 ->
  alive (orun l own0) = [] -> run l (ctx0 a) <> Abort -> run (l ++ [Declare n v]) (ctx0 a) <> Abort.
Proof.
  intros a l n v Z P F A R. rewrite run_app. pose proof (proj1 (proj1 (fair_app _ _ _) F)) as F1.
  pose proof (run_inv l _ _ (inv0 a Z) P F1) as D. destruct (run l (ctx0 a)) as [c| | |]; cbn [done] in D; try contradiction; try congruence.
  destruct (i_alive _ _ D) as (AC & _). rewrite A in AC. cbn [run step]. unfold declare. rewrite AC. cbn [length Nat.eqb negb].
  rewrite andb_false_r. destruct (grow _ _ _); [|discriminate].
  destruct (buf c) as [b|]; [destruct (alloc c <? _); [destruct (length b <? off c)|]|]; discriminate.
Qed.

(** globals_size, even when big enough for all variables, makes a later start read behind the buffer. *)
Theorem globals_size_refuted : exists a l, 0 < a /\ fair l own0 /\ run l (ctx0 a) = Bad /\
  (forall p g, In (Start p (Some g)) l -> fold_right Nat.add 0 (sizes (orun l own0)) <= g) /\
  forall p, ~ In (Vanish p) l.
Proof.
  exists 8, [Declare 4 (Some [Some 1]); Start 0 (Some 16); Declare 8 (Some [Some 2]); Start 1 None]. split; [lia|].
  split; [simpl; repeat split; try lia; intros w E; injection E as <-; simpl; lia|].
  split; [reflexivity|]. split; [|intros p; simpl; intuition congruence].
  intros p g H. simpl in H. intuition; try congruence. injection H as <- <-. simpl. lia.
Qed.
(** A thread that is not the main thread stays registered after it is gone. *)
Theorem globals_thread_end_refuted : exists a l, 0 < a /\ fair l own0 /\ alive (orun l own0) = [] /\ run l (ctx0 a) = Bad /\
  forall p g, ~ In (Start p (Some g)) l.
Proof.
  exists 8, [Declare 4 None; Start 0 None; Vanish 0; InitSpace 0 [Some 1]]. split; [lia|].
  split; [simpl; repeat split; try lia; try tauto; intros w E; discriminate E|].
  split; [reflexivity|]. split; [reflexivity|]. intros p g. simpl. intuition congruence.
Qed.
Theorem globals_thread_declare_refuted : exists a l n v, 0 < a /\ fair (l ++ [Declare n v]) own0 /\ alive (orun l own0) = [] /\
  run l (ctx0 a) <> Abort /\ run (l ++ [Declare n v]) (ctx0 a) = Abort.
Proof.
  exists 8, [Declare 8 None; Start 0 None; Vanish 0], 4, None. split; [lia|].
  split; [simpl; repeat split; try lia; try tauto; intros w E; discriminate E|].
  split; [reflexivity|]. split; [discriminate|reflexivity].
Qed.
(** A variable of a library that is loaded while a process runs has no initial value in it. *)
Theorem globals_late_refuted : exists a l c, 0 < a /\ Forall plain l /\ fair l own0 /\ run l (ctx0 a) = Ok c /\
  In 0 (alive (orun l own0)) /\ given (orun l own0) 0 = Some [Some 7] /\ read c 0 0 0 = None.
Proof.
  exists 8, [Start 0 None; Declare 4 (Some [Some 7])]. eexists. split; [lia|]. split; [repeat constructor|].
  split; [simpl; repeat split; try lia; try tauto; intros w E; injection E as <-; simpl; lia|].
  split; [reflexivity|]. split; [simpl; auto|]. split; reflexivity.
Qed.

(** *** Examples *)
(** Two processes with two variables; the buffer grows once. *)
Definition ex_ops := [Declare 3 (Some [Some 1; Some 2]); Declare 6 (Some [Some 9]); Start 0 None; Store 0 1 0 5;
  Start 1 None; Store 1 0 1 8; InitSpace 1 [None; Some 4]].
Example ex_fair : Forall plain ex_ops /\ fair ex_ops own0.
Proof.
  split; [repeat constructor|]. simpl. repeat split; try lia; try tauto; try (intros w E; injection E as <-; simpl; lia).
Qed.
Example ex_globals : exists c, run ex_ops (ctx0 8) = Ok c /\ alloc c = 16 /\
  read c 0 1 0 = None /\ read c 0 1 1 = Some 4 /\ read c 1 0 1 = Some 8 /\ read c 0 0 1 = Some 2.
Proof. eexists. split; [vm_compute; reflexivity|]. repeat split. Qed.

Print Assumptions global_slots_disjoint.
Print Assumptions global_aligned_partial.
Print Assumptions global_aligned_refuted.
Print Assumptions global_init_order.
Print Assumptions global_declared_order.
Print Assumptions globals_private_partial.
Print Assumptions globals_separate.
Print Assumptions globals_initial.
Print Assumptions globals_declare_idle.
Print Assumptions globals_size_refuted.
Print Assumptions globals_thread_end_refuted.
Print Assumptions globals_thread_declare_refuted.
Print Assumptions globals_late_refuted.
