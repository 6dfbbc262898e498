(** C151-C154: parameter files. *)
From Coq Require Import Ascii String List Arith Bool Lia.
From Verif Require Import PaModel PaSpec PaText PaTrip PaInv PaMean PaMerge.
Import ListNotations.
Local Open Scope char_scope.

(** ** C151: every rank of a parallel run has the same parameters *)

Lemma find_strip : forall p t k, find (strip t) p k = find t p k.
Proof.
  induction p as [|n p IH]; intros [ps vs ss] k; simpl; auto.
  induction ss as [|(m, c) ss IHs]; simpl; auto. destruct (seq n m); auto.
Qed.

Theorem params_roundtrip : forall files fuel t,
  tidy t -> plain t -> read files fuel (reproduce t) empty = Ok (strip t).
Proof.
  intros files fuel t T P. unfold read.
  assert (E : parse files fuel (reproduce t) (Z empty []) = Ok (Z (strip t) [])).
  { rewrite <- (app_nil_r (reproduce t)). unfold empty.
    destruct fuel; cbn [parse]; rewrite trip by auto; simpl; destruct t; reflexivity. }
  rewrite E. auto.
Qed.

Theorem ranks_agree_partial : forall files fuel ls t me,
  rank_params files fuel ls 0 = Ok t -> tidy t ->
  exists t', rank_params files fuel ls me = Ok t' /\ forall p k, find t' p k = find t p k.
Proof.
  intros files fuel ls t me H T. unfold rank_params in *.
  destruct (read files fuel ls empty) as [t0| | |] eqn:R; try discriminate.
  injection H as ->. destruct me as [|me]; [eauto|].
  exists (strip t). split; [|intros; apply find_strip].
  apply params_roundtrip; auto. eapply read_plain; eauto. apply plain_empty.
Qed.

Definition no_files : str -> option (list str) := fun _ => None.

(** A blank after the dot: rank 0 has the key " id", the others have "id". *)
Theorem ranks_differ_refuted : exists ls t0 t1,
  rank_params no_files 1 ls 0 = Ok t0 /\ rank_params no_files 1 ls 1 = Ok t1 /\
  find t0 [tx "node"] (tx "id") = None /\ find t1 [tx "node"] (tx "id") = Some (tx "3").
Proof.
  exists [tx "node. id = 3"]. eexists. eexists.
  split; [vm_compute; reflexivity|]. split; [vm_compute; reflexivity|]. split; reflexivity.
Qed.

(** A value that came from a variable is taken for the setting of a variable. *)
Theorem ranks_lose_value_refuted : exists ls t0 t1,
  rank_params no_files 1 ls 0 = Ok t0 /\ rank_params no_files 1 ls 1 = Ok t1 /\
  find t0 [] (tx "argv") = Some (tx "-c set var -x") /\ find t1 [] (tx "argv") = None.
Proof.
  exists [tx "set var x = -c set var -x"; tx "argv = $x"]. eexists. eexists.
  split; [vm_compute; reflexivity|]. split; [vm_compute; reflexivity|]. split; reflexivity.
Qed.

(** Rank 0 reads the file, the others run off the end of the list of scopes. *)
Theorem ranks_fail_refuted : exists ls t0,
  rank_params no_files 1 ls 0 = Ok t0 /\ rank_params no_files 1 ls 1 = Undef.
Proof.
  exists [tx "node.}x = 3"]. eexists. split; vm_compute; reflexivity.
Qed.

Definition sample : list str :=
  [tx "# a machine"; tx "set var bw = 10GB/s"; tx "node {"; tx "  nic {"; tx "    bandwidth = $bw";
   tx "  }"; tx "  proc.ncores=4"; tx "}"; tx "node.nic.mtu = 4096"; tx "topology = [4,4]"].

Example ranks_agree_example : exists t,
  rank_params no_files 3 sample 0 = Ok t /\
  tidy t /\
  reproduce t = [tx "topology = [4,4]"; tx "node {"; tx "nic {"; tx "bandwidth = 10GB/s"; tx "mtu = 4096";
                 tx "}"; tx "proc {"; tx "ncores = 4"; tx "}"; tx "}"] /\
  find t [tx "node"; tx "nic"] (tx "bandwidth") = Some (tx "10GB/s") /\
  exists t', rank_params no_files 3 sample 5 = Ok t' /\
    find t' [tx "node"; tx "proc"] (tx "ncores") = Some (tx "4").
Proof.
  eexists. split; [vm_compute; reflexivity|]. split; [|split; [vm_compute; reflexivity|]].
  - repeat (constructor; [
      intros k v I; repeat (destruct I as [I|I]; [injection I as <- <-; repeat split; discriminate|]);
      destruct I |
      intros n c I; repeat (destruct I as [I|I];
        [injection I as <- <-; split; [reflexivity|split; [split; discriminate|]]|]);
      try destruct I]).
  - split; [vm_compute; reflexivity|]. eexists. split; vm_compute; reflexivity.
Qed.

(** ** C152: what a parameter file means *)

Theorem file_meaning : forall files fuel ls,
  match read files fuel ls empty, means files fuel ls [] nothing with
  | Ok t, Ok m => forall p k, find t p k = val m (rev p) k
  | Abort, Abort | Undef, Undef | More, More => True
  | _, _ => False
  end.
Proof.
  intros files fuel ls. pose proof (parse_rel files fuel ls _ _ _ rel_empty) as H.
  unfold read. unfold agree in H.
  destruct (parse files fuel ls (Z empty [])) as [z| | |];
    destruct (means files fuel ls [] nothing) as [m| | |]; auto.
  destruct H as (A & B & _). intros p k. rewrite <- B, rev_involutive, fg_find.
  unfold whole. destruct (ctx z) as [|(n, t) c]; [auto|discriminate A].
Qed.

(** Indentation and carriage returns at the ends of lines make no difference. *)
Definition filler (s : str) : Prop := forall c, In c s -> c = " " \/ c = "013".

Lemma filler_blanks : forall s, filler s -> blanks s.
Proof.
  intros s H. apply Forall_forall. intros c I. destruct (H c I) as [-> | ->]; reflexivity.
Qed.

Lemma trim_filler : forall p l q, filler p -> filler q -> trim (p ++ l ++ q) = trim l.
Proof.
  intros p l q P Q. destruct (trim_split l) as (a & b & A & B & E).
  rewrite E at 1. replace (p ++ (a ++ trim l ++ b) ++ q) with ((p ++ a) ++ trim l ++ (b ++ q))
    by (rewrite !app_assoc; auto).
  apply trim_mid.
  - apply Forall_app; split; auto. apply filler_blanks; auto.
  - apply Forall_app; split; auto. apply filler_blanks; auto.
  - apply trim_tight.
Qed.

Theorem layout_free : forall files fuel ls ls' t,
  Forall2 (fun l l' => exists p q, filler p /\ filler q /\ l' = p ++ l ++ q) ls ls' ->
  read files fuel ls' t = read files fuel ls t.
Proof.
  intros files fuel ls ls' t H.
  assert (G : forall inc d z, lines inc fuel ls' d z = lines inc fuel ls d z).
  { intros inc. induction H as [|l l' ls ls' (p & q & P & Q & ->) H IH]; intros d z; auto.
    cbn [lines].
    assert (E : line_step inc fuel (p ++ l ++ q) d z = line_step inc fuel l d z).
    { unfold line_step. rewrite trim_filler by auto. auto. }
    rewrite E. destruct (line_step inc fuel l d z) as [(d', z')| | |]; auto. }
  unfold read. destruct fuel; cbn [parse]; rewrite G; auto.
Qed.

Example layout_example : exists t,
  read no_files 1 [tx "a {"; tx "b = 1"; tx "}"] empty = Ok t /\
  read no_files 1 [tx "a {" ++ ["013"]; tx "    b = 1 " ++ ["013"]; tx "  }" ++ ["013"]] empty = Ok t /\
  find t [tx "a"] (tx "b") = Some (tx "1").
Proof. eexists. repeat split; vm_compute; reflexivity. Qed.

(** Reading a file piece by piece, if the first piece closes what it opens. *)
Lemma lines_app : forall inc fuel l2 l1 d d1 z,
  open_after l1 d = Some d1 ->
  match lines inc fuel l1 d z with
  | Ok zf => exists z1, zf = clsn d1 z1 /\ lines inc fuel (l1 ++ l2) d z = lines inc fuel l2 d1 z1
  | e => lines inc fuel (l1 ++ l2) d z = e
  end.
Proof.
  induction l1 as [|l l1 IH]; intros d d1 z H.
  - simpl in *. injection H as ->. eauto.
  - cbn [app lines]. destruct (line_step inc fuel l d z) as [(d2, z2)| | |] eqn:E; auto.
    apply IH. clear IH. unfold line_step in E. simpl in H.
    destruct (trim l) as [|c r]; [injection E as <- <-; auto|].
    destruct (Ascii.eqb c "#"); [injection E as <- <-; auto|].
    destruct (Ascii.eqb c "}").
    { destruct d; [discriminate|]. injection E as <- <-; auto. }
    destruct (Ascii.eqb (last (c :: r) "000") "{") eqn:L; cbv [last] in L, H; rewrite L in H.
    { injection E as <- <-; auto. }
    destruct (contains set_var (c :: r)).
    { destruct (split_line (skipn 8 (c :: r))) as (x, v).
      destruct (put_var d x v (foc z) (ctx z)). injection E as <- <-; auto. }
    destruct (contains ["="] (c :: r)).
    { destruct (split_line (c :: r)) as (k, v).
      destruct (parse_keyval fuel k v false true z); try discriminate. injection E as <- <-; auto. }
    destruct (contains include_w (c :: r)).
    { destruct (inc (trim (skipn 7 (c :: r))) z); try discriminate. injection E as <- <-; auto. }
    destruct (contains unset_w (c :: r)); [|discriminate].
    destruct (scope_and_key (trim (skipn 5 (c :: r)))) as (names, key).
    destruct (in_scope names (remove_param key) z); try discriminate. injection E as <- <-; auto.
Qed.

Definition meaning_of (t : ns) : meaning :=
  M (fun q k => find t (rev q) k) (fun q k => fvar t (rev q) k).

Lemma rel_root : forall t, rel (Z t []) [] (meaning_of t).
Proof.
  intros t. split; auto. unfold whole. simpl. split; intros; [apply fg_find|apply fg_fvar].
Qed.

Lemma root_ctx : forall files fuel ls t z, parse files fuel ls (Z t []) = Ok z -> z = Z (foc z) [].
Proof.
  intros files fuel ls t z H. pose proof (parse_rel files fuel ls _ _ _ (rel_root t)) as R.
  rewrite H in R. unfold agree in R.
  destruct (means files fuel ls [] (meaning_of t)); try contradiction.
  destruct R as (A & _). destruct z as [f [|x c]]; auto. discriminate A.
Qed.

Theorem read_in_pieces : forall files fuel l1 l2 t,
  open_after l1 0 = Some 0 ->
  read files fuel (l1 ++ l2) t =
  match read files fuel l1 t with Ok t1 => read files fuel l2 t1 | e => e end.
Proof.
  intros files fuel l1 l2 t H. unfold read.
  pose proof (root_ctx files fuel l1 t) as RC.
  destruct fuel as [|f]; cbn [parse] in *.
  - match goal with |- context [lines ?i ?fu (l1 ++ l2) 0 ?z] =>
      pose proof (lines_app i fu l2 l1 0 0 z H) as L end.
    destruct (lines (fun _ _ => More) 0 l1 0 (Z t [])) as [z| | |].
    + destruct L as (z1 & E1 & E2). simpl in E1. subst z1. rewrite E2.
      rewrite (RC z eq_refl) at 1. auto.
    + rewrite L; auto.
    + rewrite L; auto.
    + rewrite L; auto.
  - match goal with |- context [lines ?i ?fu (l1 ++ l2) 0 ?z] =>
      pose proof (lines_app i fu l2 l1 0 0 z H) as L; set (inc := i) in * end.
    destruct (lines inc (S f) l1 0 (Z t [])) as [z| | |].
    + destruct L as (z1 & E1 & E2). simpl in E1. subst z1. rewrite E2.
      rewrite (RC z eq_refl) at 1. auto.
    + rewrite L; auto.
    + rewrite L; auto.
    + rewrite L; auto.
Qed.

Lemma scope_dotted : forall names k,
  (forall n, In n names -> ~ In "." n) -> ~ In "." k -> scope_and_key (dotted names k) = (names, k).
Proof.
  intros names k H K. unfold scope_and_key.
  assert (G : forall f, length (dotted names k) <= f -> scope_of f (dotted names k) = (names, k)).
  { induction names as [|n names IH]; intros f L; simpl.
    - destruct f; simpl; auto. rewrite cut_none; auto.
    - simpl in L. rewrite app_length in L. simpl in L. destruct f as [|f]; [lia|]. simpl.
      rewrite cut_first by (apply H; left; auto).
      rewrite IH; [auto|intros; apply H; right; auto|lia]. }
  apply G. auto.
Qed.

Lemma in_dotted : forall c names k, In c (dotted names k) ->
  c = "." \/ In c k \/ exists n, In n names /\ In c n.
Proof.
  induction names as [|n names IH]; simpl; intros k H; auto.
  apply in_app_or in H. destruct H as [H|[H|H]]; [right; right; exists n; auto|auto|].
  apply IH in H. destruct H as [H|[H|(m & A & B)]]; auto. right; right. exists m. auto.
Qed.

Lemma tight_dotted : forall names k, (forall n, In n names -> trim n = n) -> trim k = k ->
  tight (dotted names k).
Proof.
  induction names as [|n names IH]; intros k H K; simpl.
  - apply trim_iff; auto.
  - assert (TN : tight n) by (apply trim_iff, H; left; auto).
    destruct (IH k (fun m I => H m (or_intror I)) K) as (T1 & T2). split.
    + apply hdb_app2; [apply TN|]. intros _. reflexivity.
    + rewrite rev_app_distr. simpl. rewrite <- app_assoc. apply hdb_app2; auto.
      intros _. reflexivity.
Qed.

Lemma head_dotted : forall names k, (forall n, In n names -> head_ok n) -> head_ok k ->
  head_ok (dotted names k).
Proof.
  destruct names as [|n names]; intros k H K; simpl; auto.
  specialize (H n (or_introl eq_refl)). destruct n; simpl; auto. split; discriminate.
Qed.

Lemma clsn_cls : forall j z, clsn j (cls z) = cls (clsn j z).
Proof. induction j; simpl; intros; auto. Qed.

(** The words of an assignment are read as what they are. *)
Definition words_ok (names : list str) (k v : str) : Prop :=
  (forall n, In n names -> name_ok n) /\ name_ok k /\
  trim v = v /\ last v "000" <> "{" /\
  contains set_var (assignment (dotted names k) v) = false /\
  contains set_var (assignment k v) = false.

Lemma lines_block : forall inc fuel names k v rest d z z',
  words_ok names k v ->
  in_scope names (add_param fuel k v false true) z = Ok z' ->
  lines inc fuel (block names [assignment k v] ++ rest) d z = lines inc fuel rest d z'.
Proof.
  intros inc fuel names k v rest d z z' (N & (K1 & K2 & K3 & K4) & V & LV & _ & C2).
  revert rest d z z'. induction names as [|n names IH]; intros rest d z z' H.
  - cbn [block app]. erewrite lines_step; [reflexivity|].
    unfold assignment. rewrite line_assign; auto; try (apply trim_iff; auto).
    unfold parse_keyval. rewrite scope_plain by auto. rewrite H. auto.
  - destruct (N n (or_introl eq_refl)) as (N1 & N2 & N3 & N4).
    cbn [block app]. erewrite lines_step by (apply line_open; auto; apply trim_iff; auto).
    rewrite <- app_assoc. unfold in_scope in H, IH. cbn [opns] in H.
    destruct (add_param fuel k v false true (opns names (opn n z))) as [y| | |] eqn:E; try discriminate.
    injection H as <-.
    rewrite (IH (fun m I => N m (or_intror I)) _ _ _ (clsn (length names) y)); [|rewrite E; auto].
    cbn [app]. erewrite lines_step by apply line_close. simpl. rewrite clsn_cls. auto.
Qed.

(** A dotted key and nested blocks mean the same. *)
Theorem dotted_is_block : forall files fuel names k v t t',
  words_ok names k v ->
  read files fuel [assignment (dotted names k) v] t = Ok t' ->
  read files fuel (block names [assignment k v]) t = Ok t'.
Proof.
  intros files fuel names k v t t' W H.
  pose proof W as (N & (K1 & K2 & K3 & K4) & V & LV & C1 & C2).
  assert (ST : forall inc d z, line_step inc fuel (assignment (dotted names k) v) d z =
     match in_scope names (add_param fuel k v false true) z with
     | Ok z' => Ok (d, z') | Abort => Abort | Undef => Undef | More => More end).
  { intros. unfold assignment. rewrite line_assign; auto.
    - unfold parse_keyval. rewrite scope_dotted; auto. intros n I. apply (N n I).
    - apply tight_dotted; auto. intros n I. apply (N n I).
    - apply trim_iff; auto.
    - apply head_dotted; auto. intros n I. apply (N n I).
    - intros I. apply in_dotted in I. destruct I as [I|[I|(m & A & B)]]; [discriminate|auto|].
      destruct (N m A) as (_ & _ & _ & Q). auto. }
  unfold read in *.
  assert (G : forall inc, match lines inc fuel [assignment (dotted names k) v] 0 (Z t []) with
      | Ok z => Ok (foc z) | Abort => Abort | Undef => Undef | More => More end = Ok t' ->
      match lines inc fuel (block names [assignment k v]) 0 (Z t []) with
      | Ok z => Ok (foc z) | Abort => Abort | Undef => Undef | More => More end = Ok t').
  { intros inc. cbn [lines]. rewrite ST.
    destruct (in_scope names (add_param fuel k v false true) (Z t [])) as [z| | |] eqn:E; try discriminate.
    intros F. rewrite <- (app_nil_r (block names [assignment k v])).
    rewrite (lines_block inc fuel names k v [] 0 (Z t []) z W E). exact F. }
  destruct fuel; apply G; exact H.
Qed.

(** An assignment sets its key and nothing else, whatever was read before. *)
Theorem assignment_sets : forall files fuel names k v t,
  words_ok names k v -> hd "000" v <> "$" ->
  exists t', read files fuel [assignment (dotted names k) v] t = Ok t' /\
    find t' names k = Some v /\
    forall p k', (p <> names \/ k' <> k) -> find t' p k' = find t p k'.
Proof.
  intros files fuel names k v t W D.
  pose proof W as (N & (K1 & K2 & K3 & K4) & V & LV & C1 & C2).
  pose proof (in_scope_rel names (add_param fuel k v false true) (Z t []) [] (meaning_of t)
    (Ok (M (write (val (meaning_of t)) (rev names ++ []) k (Some v)) (var (meaning_of t)))) (rel_root t)) as H.
  assert (HH : forall z, rel z (rev names ++ []) (meaning_of t) ->
    match add_param fuel k v false true z,
      Ok (M (write (val (meaning_of t)) (rev names ++ []) k (Some v)) (var (meaning_of t))) with
    | Ok z', Ok m' => rel z' (rev names ++ []) m'
    | Abort, Abort | Undef, Undef | More, More => True
    | _, _ => False
    end).
  { intros z R. pose proof (add_param_rel fuel k v z _ _ R) as A.
    assert (E : value fuel v (rev names ++ []) (meaning_of t) = Ok v).
    { rewrite <- (resolve_rel _ _ _ _ _ R). apply resolve_plain; auto. }
    rewrite E in A. destruct (add_param fuel k v false true z); auto. }
  specialize (H HH). clear HH.
  destruct (in_scope names (add_param fuel k v false true) (Z t [])) as [z| | |] eqn:E; try contradiction.
  destruct H as (A & B & _). destruct z as [f [|x c]]; [|discriminate A].
  assert (F : forall p k', find f p k' = if same_place (rev p) (rev names) && seq k' k then Some v else find t p k').
  { intros p k'. specialize (B (rev p) k'). rewrite rev_involutive, fg_find in B. unfold whole in B.
    simpl in B. rewrite B. unfold write. rewrite app_nil_r, rev_involutive. auto. }
  exists f. split.
  - assert (ST : forall inc, line_step inc fuel (assignment (dotted names k) v) 0 (Z t []) = Ok (0, Z f [])).
    { intros. unfold assignment. rewrite line_assign; auto.
      - unfold parse_keyval. rewrite scope_dotted; [rewrite E; auto| |auto]. intros n I. apply (N n I).
      - apply tight_dotted; auto. intros n I. apply (N n I).
      - apply trim_iff; auto.
      - apply head_dotted; auto. intros n I. apply (N n I).
      - intros I. apply in_dotted in I. destruct I as [I|[I|(m & P & Q)]]; [discriminate|auto|].
        destruct (N m P) as (_ & _ & _ & Q2). auto. }
    unfold read. destruct fuel; cbn [parse]; cbn [lines]; rewrite ST; reflexivity.
  - split.
    + rewrite F. rewrite seq_refl.
      assert (S1 : same_place (rev names) (rev names) = true) by (apply same_place_true; auto).
      rewrite S1. auto.
    + intros p k' O. rewrite F. destruct (same_place (rev p) (rev names)) eqn:S1; auto.
      destruct (seq k' k) eqn:S2; auto. exfalso.
      apply same_place_true in S1. apply seq_true in S2.
      apply (f_equal (@rev str)) in S1. rewrite !rev_involutive in S1. tauto.
Qed.

(** The last assignment to a key is the one that counts. *)
Theorem last_assignment_wins : forall files fuel ls t0 names k v,
  read files fuel ls empty = Ok t0 -> open_after ls 0 = Some 0 ->
  words_ok names k v -> hd "000" v <> "$" ->
  exists t, read files fuel (ls ++ [assignment (dotted names k) v]) empty = Ok t /\
    find t names k = Some v /\
    forall p k', (p <> names \/ k' <> k) -> find t p k' = find t0 p k'.
Proof.
  intros files fuel ls t0 names k v R O W D.
  rewrite read_in_pieces, R by auto. apply assignment_sets; auto.
Qed.

Example last_assignment_example : exists t0 t,
  read no_files 3 sample empty = Ok t0 /\ open_after sample 0 = Some 0 /\
  words_ok [tx "node"; tx "nic"] (tx "mtu") (tx "1500") /\
  read no_files 3 (sample ++ [assignment (dotted [tx "node"; tx "nic"] (tx "mtu")) (tx "1500")]) empty = Ok t /\
  find t0 [tx "node"; tx "nic"] (tx "mtu") = Some (tx "4096") /\
  find t [tx "node"; tx "nic"] (tx "mtu") = Some (tx "1500") /\
  find t [tx "node"; tx "nic"] (tx "bandwidth") = Some (tx "10GB/s") /\
  assignment (dotted [tx "node"; tx "nic"] (tx "mtu")) (tx "1500") = tx "node.nic.mtu = 1500" /\
  block [tx "node"; tx "nic"] [assignment (tx "mtu") (tx "1500")] =
    [tx "node {"; tx "nic {"; tx "mtu = 1500"; tx "}"; tx "}"].
Proof.
  eexists. eexists. split; [vm_compute; reflexivity|]. split; [vm_compute; reflexivity|].
  split.
  - assert (NI : forall c s, contains [c] s = false -> ~ In c s).
    { intros c s E I. apply contains_char in I. congruence. }
    assert (NO : forall n, In n [tx "node"; tx "nic"; tx "mtu"] -> name_ok n).
    { intros n [<-|[<-|[<-|[]]]]; (split; [reflexivity|]; split; [split; discriminate|]);
        split; apply NI; reflexivity. }
    split; [intros n I; apply NO; simpl in *; tauto|]. split; [apply NO; simpl; tauto|].
    split; [reflexivity|]. split; [discriminate|]. split; reflexivity.
  - repeat (split; [vm_compute; reflexivity|]). vm_compute; reflexivity.
Qed.

(** ** C153: the command line overrides the file *)

Theorem command_line_wins : forall files fuel ls t0 cmd,
  read files fuel ls empty = Ok t0 -> stored cmd ->
  exists t, run_params files fuel ls cmd = Ok t /\
    forall p k, find t p k = first_of (find cmd p k) (find t0 p k).
Proof.
  intros files fuel ls t0 cmd R S. unfold run_params. rewrite R.
  destruct (combine_merge cmd S fuel true t0 []) as (t & E & L). rewrite E. eauto.
Qed.

(** combineInto without override keeps what is there
    (sstmac/main/parseopts.cc:245). *)
Theorem combine_keeps : forall fuel a b,
  stored a ->
  exists t, combine fuel a false false (Z b []) = Ok (Z t []) /\
    forall p k, find t p k = first_of (find b p k) (find a p k).
Proof.
  intros fuel a b S. destruct (combine_merge a S fuel false b []) as (t & E & L). eauto.
Qed.

(** What is read from a file can be merged. *)
Theorem read_stored : forall files fuel ls t,
  read files fuel ls empty = Ok t -> stored t.
Proof.
  intros. apply plain_stored. eapply read_plain; eauto. apply plain_empty.
Qed.

Example command_line_example : exists cmd t,
  read no_files 1 [tx "node.nic.mtu = 9000"; tx "node.nic.post = 1us"] empty = Ok cmd /\
  run_params no_files 3 sample cmd = Ok t /\
  find t [tx "node"; tx "nic"] (tx "mtu") = Some (tx "9000") /\
  find t [tx "node"; tx "nic"] (tx "post") = Some (tx "1us") /\
  find t [tx "node"; tx "nic"] (tx "bandwidth") = Some (tx "10GB/s") /\
  exists t', combine 3 cmd false false (Z t []) = Ok (Z t' []).
Proof.
  eexists. eexists. split; [vm_compute; reflexivity|]. split; [vm_compute; reflexivity|].
  repeat (split; [vm_compute; reflexivity|]). eexists. vm_compute; reflexivity.
Qed.

(** ** C154: reading ends *)

(** No dollar sign and no include: no loop. *)
Theorem reading_ends_partial : forall files fuel ls t,
  (forall l, In l ls -> ~ In "$" l /\ contains include_w l = false) ->
  read files fuel ls t <> More.
Proof.
  intros files fuel ls t H.
  assert (LS : forall inc d z l, ~ In "$" l -> contains include_w l = false ->
    line_step inc fuel l d z <> More).
  { intros inc d z l D C. unfold line_step.
    destruct (trim_split l) as (p & q & _ & _ & E).
    assert (D2 : ~ In "$" (trim l)).
    { intros I. apply D. rewrite E. apply in_or_app; right; apply in_or_app; auto. }
    rewrite E in C. apply contains_false in C.
    destruct (trim l) as [|c r]; [discriminate|].
    destruct (Ascii.eqb c "#"); [discriminate|].
    destruct (Ascii.eqb c "}"); [destruct d; discriminate|].
    destruct (Ascii.eqb (last (c :: r) "000") "{"); [discriminate|].
    destruct (contains set_var (c :: r)).
    { destruct (split_line (skipn 8 (c :: r))) as (x, v).
      destruct (put_var d x v (foc z) (ctx z)). discriminate. }
    destruct (contains ["="] (c :: r)).
    { assert (V : hd "000" (snd (split_line (c :: r))) <> "$").
      { intros V. apply D2. unfold split_line in V.
        destruct (cut "=" (c :: r)) as [(a, b)|] eqn:CU; simpl snd in V.
        - apply cut_some in CU. destruct CU as (_ & ->). apply in_or_app. right. right.
          destruct (trim_split b) as (p' & q' & _ & _ & E'). rewrite E'.
          apply in_or_app; right; apply in_or_app; left.
          destruct (trim b); simpl in V; [discriminate|left; auto].
        - destruct (trim_split (c :: r)) as (p' & q' & _ & _ & E'). rewrite E'.
          apply in_or_app; right; apply in_or_app; left.
          destruct (trim (c :: r)); simpl in V; [discriminate|left; auto]. }
      destruct (split_line (c :: r)) as (k, v). simpl in V.
      unfold parse_keyval. destruct (scope_and_key k) as (names, key). unfold in_scope, add_param.
      rewrite resolve_plain by auto.
      destruct (look key (params (foc (opns names z)))); discriminate. }
    rewrite C.
    destruct (contains unset_w (c :: r)); [|discriminate].
    destruct (scope_and_key (trim (skipn 5 (c :: r)))) as (names, key).
    unfold in_scope, remove_param. discriminate. }
  assert (G : forall inc d z, lines inc fuel ls d z <> More).
  { intros inc. induction ls as [|l ls IH]; intros d z; cbn [lines]; [discriminate|].
    destruct (H l (or_introl eq_refl)) as (D & C). specialize (LS inc d z l D C).
    destruct (line_step inc fuel l d z) as [(d', z')| | |]; try discriminate; [|congruence].
    apply IH. intros; apply H; right; auto. }
  unfold read. intros E.
  destruct fuel; cbn [parse] in E;
    match type of E with context [lines ?i ?f ?l ?d ?z] =>
      specialize (G i d z); destruct (lines i f l d z); congruence end.
Qed.

(** A variable that stands for itself, and a file that includes itself, are
    followed for ever. *)
Theorem variable_loop_refuted : exists ls, forall files fuel, read files fuel ls empty = More.
Proof.
  exists [tx "set var x = $x"; tx "a = $x"]. intros files fuel.
  assert (R : forall f z, get_var (tx "x") z = Some (tx "$x") -> resolve f (tx "$x") z = More).
  { induction f as [|f IH]; intros z G.
    - change (resolve 0 (tx "$x") z)
        with (match get_var (tx "x") z with None => @Abort str | Some _ => More end).
      rewrite G; auto.
    - change (resolve (S f) (tx "$x") z)
        with (match get_var (tx "x") z with None => Abort | Some v => resolve f v z end).
      rewrite G; auto. }
  assert (L : forall inc fu, lines inc fu [tx "set var x = $x"; tx "a = $x"] 0 (Z empty []) = More).
  { intros inc fu. cbn [lines].
    change (line_step inc fu (tx "set var x = $x") 0 (Z empty []))
      with (Ok (0, Z (Ns [] [(tx "x", tx "$x")] []) [])). cbv iota beta.
    change (line_step inc fu (tx "a = $x") 0 (Z (Ns [] [(tx "x", tx "$x")] []) []))
      with (match parse_keyval fu (tx "a") (tx "$x") false true (Z (Ns [] [(tx "x", tx "$x")] []) []) with
            | Ok z' => Ok (0, z') | Abort => Abort | Undef => Undef | More => More end).
    unfold parse_keyval. change (scope_and_key (tx "a")) with (@nil str, tx "a"). cbv iota beta.
    unfold in_scope, opns, add_param. rewrite R; reflexivity. }
  unfold read. destruct fuel; cbn [parse]; rewrite L; auto.
Qed.

Theorem include_loop_refuted : exists files ls, forall fuel, read files fuel ls empty = More.
Proof.
  exists (fun _ => Some [tx "include a.ini"]), [tx "include a.ini"]. intros fuel.
  assert (P : forall f z, parse (fun _ => Some [tx "include a.ini"]) f [tx "include a.ini"] z = More).
  { induction f as [|f IH]; intros z; [reflexivity|].
    cbn [parse lines]. 
    match goal with |- context [line_step ?i ?fu ?l ?d ?z] =>
      change (line_step i fu l d z) with
        (match i (tx "a.ini") z with Ok z' => Ok (d, z') | Abort => Abort | Undef => Undef | More => More end) end.
    cbv beta. rewrite IH. auto. }
  unfold read. rewrite P. auto.
Qed.

(** One closing brace too many: the next line is read into the back of an
    empty list. *)
Theorem extra_brace_refuted : exists ls files, forall fuel, read files fuel ls empty = Undef.
Proof.
  exists [tx "a = 1"; tx "}"; tx "b = 2"], no_files. intros fuel. unfold read.
  destruct fuel; reflexivity.
Qed.

(** A key that contains the word include cannot be unset: the line is taken
    for an include line. *)
Theorem unset_include_refuted : exists ls t0,
  read no_files 1 ls empty = Ok t0 /\ find t0 [] (tx "include_os") = Some (tx "yes") /\
  forall fuel, read no_files (S fuel) (ls ++ [tx "unset include_os"]) empty = Abort.
Proof.
  exists [tx "include_os = yes"]. eexists. split; [vm_compute; reflexivity|].
  split; [reflexivity|]. intros fuel. unfold read. reflexivity.
Qed.

Example reading_ends_example : exists t,
  read no_files 0 [tx "node {"; tx "a = 1"; tx "}"; tx "unset node.a"; tx "b = 2"] empty = Ok t /\
  find t [tx "node"] (tx "a") = None /\ find t [] (tx "b") = Some (tx "2") /\
  read no_files 2 [tx "set var x = $y"; tx "set var y = 7"; tx "a = $x"] empty <> More.
Proof.
  eexists. split; [vm_compute; reflexivity|]. split; [reflexivity|]. split; [reflexivity|].
  vm_compute. discriminate.
Qed.

Print Assumptions params_roundtrip.
Print Assumptions ranks_agree_partial.
Print Assumptions ranks_differ_refuted.
Print Assumptions ranks_lose_value_refuted.
Print Assumptions ranks_fail_refuted.
Print Assumptions file_meaning.
Print Assumptions layout_free.
Print Assumptions read_in_pieces.
Print Assumptions dotted_is_block.
Print Assumptions assignment_sets.
Print Assumptions last_assignment_wins.
Print Assumptions command_line_wins.
Print Assumptions combine_keeps.
Print Assumptions read_stored.
Print Assumptions reading_ends_partial.
Print Assumptions variable_loop_refuted.
Print Assumptions include_loop_refuted.
Print Assumptions extra_brace_refuted.
Print Assumptions unset_include_refuted.
