(** Parameters printed and read again. *)
From Coq Require Import Ascii String List Arith Bool Lia.
From Verif Require Import PaModel PaSpec PaText.
Import ListNotations.
Local Open Scope char_scope.

Lemma ns_induct (P : ns -> Prop) :
  (forall ps vs ss, (forall n c, In (n, c) ss -> P c) -> P (Ns ps vs ss)) -> forall t, P t.
Proof.
  intros H. fix F 1. intros [ps vs ss]. apply H.
  induction ss as [|(n', c') ss IH]; intros n c I; [destruct I|].
  destruct I as [I|I]; [injection I as _ <-; apply F|eapply IH; eauto].
Qed.

Lemma resolve_plain : forall fuel v z, hd "000" v <> "$" -> resolve fuel v z = Ok v.
Proof.
  intros fuel v z H. destruct v as [|c v]; [destruct fuel; auto|].
  destruct fuel; simpl; destruct c as [[] [] [] [] [] [] [] []]; auto; exfalso; apply H; reflexivity.
Qed.

Lemma scope_plain : forall k, ~ In "." k -> scope_and_key k = ([], k).
Proof.
  intros k H. unfold scope_and_key. destruct (length k); simpl; auto.
  rewrite cut_none; auto.
Qed.

Lemma keyval_plain : forall fuel k v z,
  ~ In "." k -> hd "000" v <> "$" ->
  parse_keyval fuel k v false true z =
  Ok (Z (set_params (upd k v (params (foc z))) (foc z)) (ctx z)).
Proof.
  intros fuel k v z NK NV. unfold parse_keyval. rewrite scope_plain by auto.
  unfold in_scope, opns, add_param. rewrite resolve_plain by auto.
  destruct (look k (params (foc z))); reflexivity.
Qed.

Lemma line_assign : forall inc fuel k v d z,
  tight k -> tight v -> head_ok k -> ~ In "=" k -> last v "000" <> "{" ->
  contains set_var (k ++ tx " = " ++ v) = false ->
  line_step inc fuel (k ++ tx " = " ++ v) d z =
  match parse_keyval fuel k v false true z with
  | Ok z' => Ok (d, z')
  | Abort => Abort | Undef => Undef | More => More
  end.
Proof.
  intros inc fuel k v d z TK TV HK NE LV CV.
  destruct (kv_trim k v TK TV) as (a & b & ET & (p & q & EP) & NA & TA & TB & HD & LA).
  unfold line_step. rewrite ET.
  rewrite EP in CV. apply contains_false in CV.
  assert (CE : contains ["="] (a ++ "=" :: b) = true).
  { apply contains_char, in_or_app. right; left; auto. }
  assert (SL : split_line (a ++ "=" :: b) = (k, v)).
  { unfold split_line. rewrite cut_first by auto. rewrite TA, TB. auto. }
  assert (LN : Ascii.eqb (last (a ++ "=" :: b) "000") "{" = false).
  { apply Ascii.eqb_neq. rewrite LA. rewrite rev_last in LV |- *.
    destruct (rev v); auto. discriminate. }
  destruct (a ++ "=" :: b) as [|c r] eqn:E; [destruct a; discriminate|].
  assert (HC : Ascii.eqb c "#" = false /\ Ascii.eqb c "}" = false).
  { simpl in HD. destruct k as [|x k]; simpl in HD; subst c; auto.
    destruct HK as [H1 H2]. split; apply Ascii.eqb_neq; auto. }
  destruct HC as [-> ->]. rewrite LN, CV, CE, SL. auto.
Qed.

Lemma line_kv : forall inc fuel k v d z,
  tight k -> tight v -> head_ok k -> ~ In "=" k -> ~ In "." k ->
  last v "000" <> "{" -> hd "000" v <> "$" ->
  contains set_var (k ++ tx " = " ++ v) = false ->
  line_step inc fuel (k ++ tx " = " ++ v) d z =
  Ok (d, Z (set_params (upd k v (params (foc z))) (foc z)) (ctx z)).
Proof.
  intros. rewrite line_assign by auto. rewrite keyval_plain by auto. auto.
Qed.

Lemma line_open : forall inc fuel n d z,
  tight n -> head_ok n ->
  line_step inc fuel (n ++ tx " {") d z = Ok (S d, opn n z).
Proof.
  intros inc fuel n d z T H. destruct (open_trim n T) as (a & E & TA & HD).
  unfold line_step. rewrite E.
  assert (L : Ascii.eqb (last (a ++ ["{"]) "000") "{" = true) by (rewrite last_last; auto).
  assert (R : removelast (a ++ ["{"]) = a) by apply removelast_last.
  destruct (a ++ ["{"]) as [|c r] eqn:EA; [destruct a; discriminate|].
  assert (HC : Ascii.eqb c "#" = false /\ Ascii.eqb c "}" = false).
  { simpl in HD. destruct n as [|x n]; simpl in HD; subst c; auto.
    destruct H as [H1 H2]. split; apply Ascii.eqb_neq; auto. }
  destruct HC as [-> ->]. rewrite L, R, TA. auto.
Qed.

Lemma line_close : forall inc fuel d z,
  line_step inc fuel (tx "}") (S d) z = Ok (d, cls z).
Proof. reflexivity. Qed.

Lemma upd_new : forall A k (a : A) l, ~ In k (map fst l) -> upd k a l = l ++ [(k, a)].
Proof.
  induction l as [|(k', b) l IH]; intros H; simpl; auto.
  destruct (seq k k') eqn:E.
  - apply seq_true in E. subst. exfalso; apply H; left; auto.
  - rewrite IH; auto. intros I; apply H; right; auto.
Qed.

Lemma look_none : forall A k (l : list (str * A)), ~ In k (map fst l) -> look k l = None.
Proof.
  induction l as [|(k', b) l IH]; intros H; simpl; auto.
  destruct (seq k k') eqn:E.
  - apply seq_true in E. subst. exfalso; apply H; left; auto.
  - apply IH. intros I; apply H; right; auto.
Qed.

Lemma lines_step : forall inc fuel l d z d' z' r,
  line_step inc fuel l d z = Ok (d', z') -> lines inc fuel (l :: r) d z = lines inc fuel r d' z'.
Proof. intros. simpl. rewrite H. auto. Qed.

Lemma trip_params : forall inc fuel ps acc vs ss c d rest,
  NoDup (map fst (acc ++ ps)) ->
  (forall k v, In (k, v) ps -> ~ In "=" k /\ ~ In "." k /\ plain_value v) ->
  (forall k v, In (k, v) ps ->
     trim k = k /\ head_ok k /\ contains set_var (k ++ tx " = " ++ v) = false) ->
  lines inc fuel (map (fun kv : str * str => fst kv ++ tx " = " ++ snd kv) ps ++ rest) d
    (Z (Ns acc vs ss) c) =
  lines inc fuel rest d (Z (Ns (acc ++ ps) vs ss) c).
Proof.
  induction ps as [|(k, v) ps IH]; intros acc vs ss c d rest ND P T.
  - rewrite app_nil_r. auto.
  - destruct (P k v (or_introl eq_refl)) as (P1 & P2 & P3 & P4 & P5).
    destruct (T k v (or_introl eq_refl)) as (T1 & T2 & T3).
    cbn [map app fst snd].
    erewrite lines_step by (apply line_kv; auto; apply trim_iff; auto).
    unfold set_params. cbn [foc ctx params vars subs].
    rewrite upd_new.
    + rewrite IH; [rewrite <- app_assoc; auto| | |].
      * rewrite <- app_assoc. auto.
      * intros; apply P; right; auto.
      * intros; apply T; right; auto.
    + rewrite map_app in ND. simpl in ND. apply NoDup_remove_2 in ND.
      intros I. apply ND. apply in_or_app. auto.
Qed.

Theorem trip : forall t, tidy t -> plain t -> forall inc fuel vs c d rest,
  lines inc fuel (reproduce t ++ rest) d (Z (Ns [] vs []) c) =
  lines inc fuel rest d (Z (Ns (params (strip t)) vs (subs (strip t))) c).
Proof.
  induction t as [ps vs0 ss IH] using ns_induct.
  intros T P inc fuel vs c d rest. inversion T as [? ? ? T1 T2]; subst.
  inversion P as [? ? ? P1 P2 P3 P4 P5]; subst.
  cbn [reproduce]. rewrite <- app_assoc. rewrite trip_params; auto. cbn [app strip params subs].
  clear T P P1 P2 P3 T1.
  assert (G : forall l acc, NoDup (map fst (acc ++ l)) -> (forall x, In x l -> In x ss) ->
    lines inc fuel (flat_map (fun nt : str * ns => let (n, c) := nt in (n ++ tx " {") :: reproduce c ++ [tx "}"]) l ++ rest) d
      (Z (Ns ps vs (map (fun nt : str * ns => let (n, c) := nt in (n, strip c)) acc)) c) =
    lines inc fuel rest d (Z (Ns ps vs (map (fun nt : str * ns => let (n, c) := nt in (n, strip c)) (acc ++ l))) c)).
  { induction l as [|(n, k) l IHl]; intros acc ND SUB.
    - rewrite app_nil_r. auto.
    - destruct (T2 n k (SUB _ (or_introl eq_refl))) as (TN & HN & TC).
      pose proof (P5 n k (SUB _ (or_introl eq_refl))) as PC.
      pose proof (IH n k (SUB _ (or_introl eq_refl)) TC PC) as IHk.
      assert (NN : ~ In n (map fst (map (fun nt : str * ns => let (n, c) := nt in (n, strip c)) acc))).
      { rewrite map_map. rewrite map_app in ND. simpl in ND. apply NoDup_remove_2 in ND.
        intros I. apply ND. apply in_or_app. left. clear -I.
        apply in_map_iff in I. destruct I as ((n', c') & E & I). simpl in E. subst.
        apply in_map_iff. exists (n, c'). auto. }
      cbn [flat_map]. cbn [app].
      erewrite lines_step by (apply line_open; auto; apply trim_iff; auto).
      unfold opn, sub. cbn [foc ctx subs]. rewrite look_none by auto. unfold empty.
      rewrite <- !app_assoc. rewrite IHk.
      cbn [app]. erewrite lines_step by apply line_close.
      unfold cls. cbn [ctx foc]. unfold set_sub. cbn [params vars subs].
      rewrite upd_new by auto.
      replace (Ns (params (strip k)) [] (subs (strip k))) with (strip k)
        by (destruct k; reflexivity).
      replace (acc ++ (n, k) :: l) with ((acc ++ [(n, k)]) ++ l) by (rewrite <- app_assoc; auto).
      rewrite <- IHl.
      + rewrite map_app. auto.
      + rewrite <- app_assoc. auto.
      + intros; apply SUB; right; auto. }
  apply (G ss []); auto.
Qed.
