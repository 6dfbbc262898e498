(** Facts about trimming and searching in lines. *)
From Coq Require Import Ascii String List Arith Bool Lia.
From Verif Require Import PaModel PaSpec.
Import ListNotations.
Local Open Scope char_scope.

Lemma seq_true : forall a b, seq a b = true <-> a = b.
Proof.
  intros; unfold seq; destruct (list_eq_dec ascii_dec a b); split; intros; auto; discriminate.
Qed.

Lemma seq_refl : forall a, seq a a = true.
Proof. intros; apply seq_true; auto. Qed.

Lemma seq_false : forall a b, seq a b = false <-> a <> b.
Proof.
  intros; unfold seq; destruct (list_eq_dec ascii_dec a b); split; intros; auto; try discriminate.
  contradiction.
Qed.

Definition hdb (s : str) : Prop := match s with c :: _ => blank c = false | [] => True end.
Definition tight (s : str) : Prop := hdb s /\ hdb (rev s).
Definition blanks (s : str) : Prop := Forall (fun c => blank c = true) s.

Lemma ltrim_hdb : forall s, hdb (ltrim s).
Proof.
  induction s as [|c s IH]; simpl; auto. destruct (blank c) eqn:B; auto.
Qed.

Lemma ltrim_id : forall s, hdb s -> ltrim s = s.
Proof. destruct s; simpl; auto. intros H; rewrite H; auto. Qed.

Lemma ltrim_pre : forall s, exists p, blanks p /\ s = p ++ ltrim s.
Proof.
  induction s as [|c s IH]; simpl.
  - exists []; split; [constructor|auto].
  - destruct (blank c) eqn:B.
    + destruct IH as (p & BP & E). exists (c :: p). split; [constructor; auto|simpl; congruence].
    + exists []; split; [constructor|auto].
Qed.

Lemma ltrim_blanks : forall p s, blanks p -> ltrim (p ++ s) = ltrim s.
Proof.
  induction p as [|c p IH]; intros s H; simpl; auto.
  inversion H; subst. rewrite H2. auto.
Qed.

Lemma hdb_app : forall a b, a <> [] -> hdb (a ++ b) -> hdb a.
Proof. destruct a; simpl; auto; congruence. Qed.

Lemma hdb_app2 : forall a b, hdb a -> (a = [] -> hdb b) -> hdb (a ++ b).
Proof. destruct a; simpl; auto. Qed.

Lemma trim_tight : forall s, tight (trim s).
Proof.
  intros s. unfold trim, tight. rewrite rev_involutive. split; [|apply ltrim_hdb].
  destruct (ltrim_pre (rev (ltrim s))) as (p & BP & E).
  assert (E2 : ltrim s = rev (ltrim (rev (ltrim s))) ++ rev p).
  { rewrite <- rev_app_distr, <- E, rev_involutive. auto. }
  pose proof (ltrim_hdb s) as H. rewrite E2 in H.
  destruct (rev (ltrim (rev (ltrim s)))) eqn:R; [exact I|].
  eapply hdb_app; [|exact H]; discriminate.
Qed.

Lemma trim_id : forall s, tight s -> trim s = s.
Proof.
  intros s (H1 & H2). unfold trim. rewrite (ltrim_id s H1), (ltrim_id _ H2), rev_involutive. auto.
Qed.

Lemma trim_iff : forall s, trim s = s <-> tight s.
Proof. intros s; split; [intros <-; apply trim_tight|apply trim_id]. Qed.

Lemma trim_trim : forall s, trim (trim s) = trim s.
Proof. intros; apply trim_id, trim_tight. Qed.

Lemma blanks_rev : forall s, blanks s -> blanks (rev s).
Proof. intros s H. apply Forall_rev; auto. Qed.

Lemma trim_mid : forall p t q, blanks p -> blanks q -> tight t -> trim (p ++ t ++ q) = t.
Proof.
  intros p t q BP BQ (T1 & T2). unfold trim. rewrite ltrim_blanks by auto.
  destruct t as [|c t].
  - simpl. rewrite <- (app_nil_r q), ltrim_blanks by auto. auto.
  - rewrite (ltrim_id ((c :: t) ++ q)) by exact T1.
    rewrite rev_app_distr, ltrim_blanks by (apply blanks_rev; auto).
    rewrite ltrim_id by auto. apply rev_involutive.
Qed.

Lemma trim_split : forall s, exists p q, blanks p /\ blanks q /\ s = p ++ trim s ++ q.
Proof.
  intros s. destruct (ltrim_pre s) as (p & BP & E).
  destruct (ltrim_pre (rev (ltrim s))) as (q & BQ & E2).
  exists p, (rev q). split; auto. split; [apply blanks_rev; auto|].
  rewrite E at 1. f_equal. unfold trim. rewrite <- rev_app_distr, <- E2, rev_involutive. auto.
Qed.

(** Substrings. *)
Lemma begins_app : forall w s q, begins w s = true -> begins w (s ++ q) = true.
Proof.
  induction w as [|a w IH]; intros [|b s] q H; simpl in *; auto; try discriminate.
  apply andb_true_iff in H. destruct H as [H1 H2]. rewrite H1. simpl. auto.
Qed.

Lemma contains_sub : forall w p s q, contains w s = true -> contains w (p ++ s ++ q) = true.
Proof.
  intros w p s q H. induction p as [|c p IH]; simpl.
  - induction s as [|c s IH]; simpl in *.
    + apply orb_true_iff in H. destruct H as [H|H]; [|discriminate].
      apply (begins_app _ _ q) in H. simpl in H. destruct q; simpl in *; rewrite H; auto.
    + apply orb_true_iff in H. destruct H as [H|H].
      * apply (begins_app _ _ q) in H. simpl in H. rewrite H. auto.
      * rewrite IH; auto. apply orb_true_r.
  - rewrite IH. apply orb_true_r.
Qed.

Lemma contains_false : forall w p s q, contains w (p ++ s ++ q) = false -> contains w s = false.
Proof.
  intros w p s q H. destruct (contains w s) eqn:E; auto.
  rewrite (contains_sub w p s q E) in H. discriminate.
Qed.

Lemma contains_char : forall c s, contains [c] s = true <-> In c s.
Proof.
  intros c s. induction s as [|x s IH]; simpl.
  - split; [discriminate|tauto].
  - rewrite orb_true_iff, IH, andb_true_r, Ascii.eqb_eq. intuition congruence.
Qed.

Lemma cut_first : forall c a b, ~ In c a -> cut c (a ++ c :: b) = Some (a, b).
Proof.
  intros c a b H. induction a as [|x a IH]; simpl.
  - rewrite Ascii.eqb_refl. auto.
  - destruct (Ascii.eqb_spec x c) as [E|E]; [exfalso; apply H; left; auto|].
    rewrite IH; auto. intros I; apply H; right; auto.
Qed.

Lemma cut_none : forall c s, ~ In c s -> cut c s = None.
Proof.
  intros c s H. induction s as [|x s IH]; simpl; auto.
  destruct (Ascii.eqb_spec x c) as [E|E]; [exfalso; apply H; left; auto|].
  rewrite IH; auto. intros I; apply H; right; auto.
Qed.

Lemma cut_some : forall c s a b, cut c s = Some (a, b) -> ~ In c a /\ s = a ++ c :: b.
Proof.
  intros c s. induction s as [|x s IH]; intros a b H; simpl in H; [discriminate|].
  destruct (Ascii.eqb_spec x c) as [E|E].
  - injection H as <- <-. subst. split; auto.
  - destruct (cut c s) as [(a', b')|] eqn:C; [|discriminate]. injection H as <- <-.
    destruct (IH _ _ eq_refl) as (N & ->). split; auto. intros [I|I]; auto.
Qed.

Lemma last_app : forall (s : str) a b d, last (s ++ a :: b) d = last (a :: b) d.
Proof.
  induction s as [|c s IH]; intros a b d; auto.
  simpl app. rewrite <- (IH a b d). simpl. destruct (s ++ a :: b) eqn:E; auto.
  destruct s; discriminate.
Qed.

Lemma rev_last : forall (s : str) d, last s d = match rev s with c :: _ => c | [] => d end.
Proof.
  intros s d. destruct s as [|c s] using rev_ind; auto.
  rewrite last_last, rev_app_distr. auto.
Qed.

(** The part of a trimmed line after some character ends like the line. *)
Lemma trim_suffix_last : forall a b, tight (a ++ b) -> trim b <> [] ->
  last (trim b) "000" = last (a ++ b) "000".
Proof.
  intros a b (T1 & T2) N. destruct (trim_split b) as (p & q & BP & BQ & E).
  assert (q = []).
  { destruct q as [|c q] using rev_ind; auto. exfalso.
    rewrite E in T2. rewrite !app_assoc in T2. rewrite rev_app_distr in T2. simpl in T2.
    apply Forall_app in BQ. destruct BQ as [_ BQ]. inversion BQ; subst. congruence. }
  subst q. rewrite app_nil_r in E. rewrite E at 2.
  destruct (trim b) as [|c r] eqn:TB; [contradiction|].
  rewrite app_assoc, last_app. auto.
Qed.

Lemma last_trim_ok : forall a b, tight (a ++ b) -> last (a ++ b) "000" <> "{" ->
  last (trim b) "000" <> "{".
Proof.
  intros a b T L. destruct (trim b) as [|c r] eqn:TB; [simpl; discriminate|].
  rewrite <- TB, (trim_suffix_last a b T); auto. rewrite TB; discriminate.
Qed.

(** Lines the printer writes, read again. *)
Lemma kv_trim : forall k v, tight k -> tight v ->
  exists a b, trim (k ++ tx " = " ++ v) = a ++ "=" :: b /\
    (exists p q, k ++ tx " = " ++ v = p ++ (a ++ "=" :: b) ++ q) /\
    (~ In "=" k -> ~ In "=" a) /\ trim a = k /\ trim b = v /\
    hd "=" (a ++ "=" :: b) = hd "=" k /\ last (a ++ "=" :: b) "000" = last v "=".
Proof.
  intros k v TK TV.
  assert (B1 : blanks [" "]) by (repeat constructor).
  assert (B0 : blanks []) by constructor.
  assert (A : exists p a, blanks p /\ p ++ a = k ++ [" "] /\ hdb a /\
                          (~ In "=" k -> ~ In "=" a) /\ trim a = k /\ hd "=" (a ++ ["="]) = hd "=" k).
  { destruct k as [|c k].
    - exists [" "], []. repeat split; auto.
    - exists [], ((c :: k) ++ [" "]). split; [auto|]. split; [auto|]. split; [apply TK|].
      split; [|split; [apply (trim_mid [] (c :: k) [" "]); auto|reflexivity]].
      intros N I. apply in_app_or in I. destruct I as [I|[I|[]]]; [auto|discriminate I]. }
  assert (BB : exists b q, blanks q /\ b ++ q = [" "] ++ v /\ hdb (rev b) /\
                           trim b = v /\ last ("=" :: b) "000" = last v "=").
  { destruct v as [|c v].
    - exists [], [" "]. repeat split; auto.
    - exists ([" "] ++ (c :: v)), []. split; [auto|]. split; [rewrite app_nil_r; auto|].
      split.
      { rewrite rev_app_distr. apply hdb_app2; [apply TV|]. intros E. simpl in E.
        destruct (rev v); discriminate. }
      split.
      { pose proof (trim_mid [" "] (c :: v) [] B1 B0 TV) as E. rewrite app_nil_r in E. exact E. }
      { change ("=" :: [" "] ++ c :: v) with (["="; " "] ++ c :: v). rewrite last_app.
        rewrite !rev_last. destruct (rev (c :: v)) eqn:R; auto. simpl in R. destruct (rev v); discriminate. } }
  destruct A as (p & a & BP & EA & HA & NA & TA & HDA).
  destruct BB as (b & q & BQ & EB & HB & TB & LB).
  exists a, b.
  assert (EE : k ++ tx " = " ++ v = p ++ (a ++ "=" :: b) ++ q).
  { change (tx " = " ++ v) with ([" "] ++ ["="] ++ [" "] ++ v). rewrite <- EB.
    rewrite app_assoc, <- EA. rewrite <- !app_assoc. auto. }
  split.
  { rewrite EE. apply trim_mid; auto. split.
    - apply hdb_app2; auto. intros _. reflexivity.
    - rewrite rev_app_distr. simpl. rewrite <- app_assoc. apply hdb_app2; auto.
      intros _. reflexivity. }
  split; [eauto|]. split; auto. split; auto. split; auto.
  split.
  - rewrite <- HDA. destruct a; auto.
  - rewrite last_app. auto.
Qed.

Lemma open_trim : forall n, tight n ->
  exists a, trim (n ++ tx " {") = a ++ ["{"] /\ trim a = n /\
    hd "{" (a ++ ["{"]) = hd "{" n.
Proof.
  intros n T.
  assert (B1 : blanks [" "]) by (repeat constructor).
  assert (B0 : blanks []) by constructor.
  destruct n as [|c n].
  - exists []. split; [reflexivity|]. split; reflexivity.
  - exists ((c :: n) ++ [" "]). split.
    + change (tx " {") with ([" "; "{"]). rewrite <- app_assoc. apply trim_id.
      split; [apply T|]. rewrite rev_app_distr. reflexivity.
    + split; [|reflexivity]. apply (trim_mid [] (c :: n) [" "]); auto.
Qed.
