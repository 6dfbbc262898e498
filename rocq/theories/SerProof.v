(** The serializer round trip. *)
From Coq Require Import List Arith NArith Bool Lia.
From Verif Require Import SerModel SerSpec.
Import ListNotations.

Lemma enc_length k n : length (enc k n) = k.
Proof. revert n. induction k; simpl; intros; [reflexivity|]. rewrite IHk. reflexivity. Qed.

Lemma dec_enc k n : (n < 256 ^ N.of_nat k)%N -> dec (enc k n) = n.
Proof.
  revert n. induction k as [|k IH]; intros n H.
  - change (256 ^ N.of_nat 0)%N with 1%N in H. cbn [enc dec]. lia.
  - cbn [enc dec]. rewrite IH.
    + pose proof (N.div_mod' n 256). lia.
    + rewrite Nnat.Nat2N.inj_succ, N.pow_succ_r' in H.
      apply N.div_lt_upper_bound; [lia|exact H].
Qed.

Lemma put_ok cap bs out : length out + length bs <= cap -> put cap bs out = Some (out ++ bs).
Proof. intro H. unfold put. apply Nat.leb_le in H. rewrite H. reflexivity. Qed.

Lemma get_app n a rest : length a = n -> get n (a ++ rest) = Some (a, rest).
Proof.
  intro H. unfold get. rewrite app_length, H.
  replace (n <=? n + length rest) with true by (symmetry; apply Nat.leb_le; lia).
  subst n. rewrite firstn_app, skipn_app, Nat.sub_diag, firstn_all, skipn_all. simpl.
  rewrite app_nil_r. reflexivity.
Qed.

Lemma small31 n : (n < 2 ^ 31)%N -> (n < 256 ^ N.of_nat 8)%N.
Proof. intro H. eapply N.lt_trans; [exact H|]. reflexivity. Qed.
Lemma small31' n : (n < 2 ^ 31)%N -> (n < 256 ^ N.of_nat 4)%N.
Proof. intro H. eapply N.lt_trans; [exact H|]. reflexivity. Qed.
Lemma small64 n : (n < 2 ^ 64)%N -> (n < 256 ^ N.of_nat 8)%N.
Proof. intro H. exact H. Qed.
Lemma small_null c : (c < null_id)%N -> (c < 256 ^ N.of_nat 8)%N.
Proof. intro H. eapply N.lt_trans; [exact H|]. reflexivity. Qed.

Lemma in_n_step {A} (f : list byte -> option (A * list byte)) n inp x l i i' :
  f inp = Some (x, i) -> in_n f n i = Some (l, i') -> in_n f (S n) inp = Some (x :: l, i').
Proof. intros H1 H2. unfold in_n in *. rewrite H1. cbn [bind]. rewrite H2. reflexivity. Qed.

Section P.
Variable reg : registry.
Variable ltb : val -> val -> bool.

Local Notation size := (size reg).
Local Notation pack := (pack reg).
Local Notation unpack := (unpack reg ltb).
Local Notation holds := (holds reg ltb).
Local Notation all := (all reg ltb).
Local Notation all_pairs := (all_pairs reg ltb).
Local Notation members := (members reg ltb).

Scheme holds_ind2 := Induction for SerSpec.holds Sort Prop
with all_ind2 := Induction for SerSpec.all Sort Prop
with pairs_ind2 := Induction for SerSpec.all_pairs Sort Prop
with members_ind2 := Induction for SerSpec.members Sort Prop.
Combined Scheme holds_mut from holds_ind2, all_ind2, pairs_ind2, members_ind2.

(** What is proved of each value: its image, the size, packing and unpacking. *)
Definition good (t : ty) (o v : val) : Prop :=
  exists bs f0, size t v = Some (length bs) /\
    (forall cap out, length out + length bs <= cap -> pack cap t v out = Some (out ++ bs)) /\
    (forall f rest, f0 <= f -> unpack f t o (bs ++ rest) = Some (v, rest)).

Definition goods (t : ty) (o : val) (l : list val) : Prop :=
  exists bs f0, sum1 (size t) l = Some (length bs) /\
    (forall cap out, length out + length bs <= cap -> out1 (pack cap t) l out = Some (out ++ bs)) /\
    (forall f rest, f0 <= f -> in_n (unpack f t o) (length l) (bs ++ rest) = Some (l, rest)) /\
    (forall f rest, f0 <= f -> in_slots (unpack f t) (repeat o (length l)) (bs ++ rest) = Some (l, rest)).

Definition good_pairs (tk tv : ty) (l : list (val * val)) : Prop :=
  exists bs f0, sum_pairs (size tk) (size tv) l = Some (length bs) /\
    (forall cap out, length out + length bs <= cap -> out_pairs (pack cap tk) (pack cap tv) l out = Some (out ++ bs)) /\
    (forall f rest, f0 <= f ->
       in_n (fun i1 => bind (unpack f tk (dflt tk) i1) (fun '(k, i2) =>
                       bind (unpack f tv (dflt tv) i2) (fun '(x, i3) => Some ((k, x), i3))))
            (length l) (bs ++ rest) = Some (l, rest)).

Definition good_members (ts : list ty) (os l : list val) : Prop :=
  exists bs f0, sum_fields size ts l = Some (length bs) /\
    (forall cap out, length out + length bs <= cap -> out_fields (pack cap) ts l out = Some (out ++ bs)) /\
    (forall f rest, f0 <= f -> in_fields (unpack f) ts os (bs ++ rest) = Some (l, rest)).

Lemma ins_end x l : (forall y, In y l -> ltb y x = true /\ ltb x y = false) -> ins ltb x l = l ++ [x].
Proof.
  induction l as [|y l IH]; intro H; [reflexivity|]. simpl.
  destruct (H y (or_introl eq_refl)) as [A B]. rewrite B, A. rewrite IH; [reflexivity|].
  intros z Z. apply H. right. exact Z.
Qed.

Lemma ins_all : forall l acc, increasing ltb (acc ++ l) ->
  fold_left (fun s x => ins ltb x s) l acc = acc ++ l.
Proof.
  induction l as [|x l IH]; intros acc H; simpl; [rewrite app_nil_r; reflexivity|].
  rewrite ins_end.
  - rewrite IH; rewrite <- app_assoc; [reflexivity|exact H].
  - intros y Y. apply in_split in Y. destruct Y as (a & b & ->).
    apply (H a y b x l). rewrite <- !app_assoc. reflexivity.
Qed.

Lemma assign_end k x l : (forall y, In y l -> ltb (fst y) k = true /\ ltb k (fst y) = false) ->
  assign ltb k x l = l ++ [(k, x)].
Proof.
  induction l as [|[k' x'] l IH]; intro H; [reflexivity|]. simpl.
  destruct (H (k', x') (or_introl eq_refl)) as [A B]. simpl in A, B. rewrite B, A. rewrite IH; [reflexivity|].
  intros z Z. apply H. right. exact Z.
Qed.

Lemma assign_all : forall l acc, increasing (fun a b => ltb (fst a) (fst b)) (acc ++ l) ->
  fold_left (fun s kv => assign ltb (fst kv) (snd kv) s) l acc = acc ++ l.
Proof.
  induction l as [|[k x] l IH]; intros acc H; simpl; [rewrite app_nil_r; reflexivity|].
  rewrite assign_end.
  - rewrite IH; rewrite <- app_assoc; [reflexivity|exact H].
  - intros y Y. apply in_split in Y. destruct Y as (a & b & ->).
    apply (H a y b (k, x) l). rewrite <- !app_assoc. reflexivity.
Qed.

Lemma assign_at k x x0 l r : ltb k k = false ->
  (forall y, In y l -> ltb (fst y) k = true /\ ltb k (fst y) = false) ->
  assign ltb k x (l ++ (k, x0) :: r) = l ++ (k, x) :: r.
Proof.
  intros R. induction l as [|[k' x'] l IH]; intro H; simpl; [rewrite R; reflexivity|].
  destruct (H (k', x') (or_introl eq_refl)) as [A B]. simpl in A, B. rewrite B, A. rewrite IH; [reflexivity|].
  intros z Z. apply H. right. exact Z.
Qed.

Lemma assign_over : (forall k, ltb k k = false) -> forall l l0 acc,
  increasing (fun a b => ltb (fst a) (fst b)) (acc ++ l) -> map fst l0 = map fst l ->
  fold_left (fun s kv => assign ltb (fst kv) (snd kv) s) l (acc ++ l0) = acc ++ l.
Proof.
  intro R. induction l as [|[k x] l IH]; intros [|[k0 x0] l0] acc H E; try discriminate; [reflexivity|].
  simpl in E. injection E as -> E. cbn [fold_left fst snd]. rewrite (assign_at k x x0 acc l0 (R k)).
  - pose proof (IH l0 (acc ++ [(k, x)])) as G. rewrite <- !app_assoc in G. apply G; assumption.
  - intros y Y. apply in_split in Y. destruct Y as (a & b & ->).
    apply (H a y b (k, x) l). rewrite <- !app_assoc. reflexivity.
Qed.

Ltac lens := rewrite ?app_length, ?enc_length in *; unfold sz_int, sz_size_t, sz_long in *; lia.

Lemma good_all :
  (forall t o v, holds t o v -> good t o v) /\
  (forall t o l, all t o l -> goods t o l) /\
  (forall tk tv l, all_pairs tk tv l -> good_pairs tk tv l) /\
  (forall ts os l, members ts os l -> good_members ts os l).
Proof.
  apply (holds_mut reg ltb (fun t o v _ => good t o v) (fun t o l _ => goods t o l)
          (fun tk tv l _ => good_pairs tk tv l) (fun ts os l _ => good_members ts os l)).
  - (* prim *) intros n o bs H. exists bs, 1. split; [|split].
    + simpl. rewrite H, Nat.eqb_refl. reflexivity.
    + intros cap out L. simpl. rewrite H, Nat.eqb_refl. apply put_ok, L.
    + intros [|f] rest F; [lia|]. simpl. rewrite get_app by exact H. reflexivity.
  - (* bool *) intros o b. exists (enc 4 (if b then 1 else 0)), 1. split; [|split].
    + simpl. reflexivity.
    + intros cap out L. apply put_ok, L.
    + intros [|f] rest F; [lia|]. cbn [SerModel.unpack]. rewrite get_app by apply enc_length.
      cbn [bind]. rewrite dec_enc by (destruct b; reflexivity). destruct b; reflexivity.
  - (* string *) intros o bs H. exists (enc 4 (N.of_nat (length bs)) ++ bs), 1. split; [|split].
    + cbn [SerModel.size]. f_equal; lens.
    + intros cap out L. cbn [SerModel.pack]. unfold sz_int. rewrite put_ok by lens. cbn [bind].
      rewrite put_ok by lens. rewrite app_assoc. reflexivity.
    + intros [|f] rest F; [lia|]. cbn [SerModel.unpack]. unfold sz_int. rewrite <- app_assoc.
      rewrite get_app by apply enc_length. cbn [bind]. rewrite dec_enc by (apply small31', H).
      rewrite Nnat.Nat2N.id, get_app by reflexivity. reflexivity.
  - (* arr *) intros n o bs H. exists bs, 1. split; [|split].
    + simpl. rewrite H, Nat.eqb_refl. reflexivity.
    + intros cap out L. simpl. rewrite H, Nat.eqb_refl. apply put_ok, L.
    + intros [|f] rest F; [lia|]. simpl. rewrite get_app by exact H. reflexivity.
  - (* bin null *) intros i e o. exists (enc i 0), 1. split; [|split].
    + cbn [SerModel.size]. f_equal; rewrite enc_length; simpl; lia.
    + intros cap out L. apply put_ok, L.
    + intros [|f] rest F; [lia|]. cbn [SerModel.unpack]. rewrite get_app by apply enc_length. cbn [bind].
      rewrite dec_enc by (apply N.neq_0_lt_0, N.pow_nonzero; lia). reflexivity.
  - (* bin *) intros i e o bs n Z B H. exists (enc i n ++ bs), 1. apply N.eqb_neq in Z. split; [|split].
    + simpl. f_equal; lens.
    + intros cap out L. cbn [SerModel.pack]. rewrite Z. rewrite put_ok by lens. cbn [bind].
      rewrite <- H, firstn_all, put_ok by lens. rewrite app_assoc. reflexivity.
    + intros [|f] rest F; [lia|]. cbn [SerModel.unpack]. rewrite <- app_assoc.
      rewrite get_app by apply enc_length. cbn [bind]. rewrite dec_enc by exact B. rewrite Z.
      rewrite get_app by exact H. reflexivity.
  - (* void null *) intros i o. exists (enc i 0), 1. split; [|split].
    + cbn [SerModel.size]. f_equal; rewrite enc_length; simpl; lia.
    + intros cap out L. apply put_ok, L.
    + intros [|f] rest F; [lia|]. cbn [SerModel.unpack]. rewrite get_app by apply enc_length. cbn [bind].
      rewrite dec_enc by (apply N.neq_0_lt_0, N.pow_nonzero; lia). reflexivity.
  - (* void *) intros i o bs n Z B H. exists (enc i n ++ bs), 1. apply N.eqb_neq in Z. split; [|split].
    + simpl. f_equal; lens.
    + intros cap out L. cbn [SerModel.pack]. rewrite Z. rewrite put_ok by lens. cbn [bind].
      rewrite <- H, firstn_all, put_ok by lens. rewrite app_assoc. reflexivity.
    + intros [|f] rest F; [lia|]. cbn [SerModel.unpack]. rewrite <- app_assoc.
      rewrite get_app by apply enc_length. cbn [bind]. rewrite dec_enc by exact B. rewrite Z.
      rewrite get_app by exact H. reflexivity.
  - (* vec *) intros t l B _ (bs & f0 & S1 & P1 & _ & U1).
    exists (enc 8 (N.of_nat (length l)) ++ bs), (S f0). split; [|split].
    + cbn [SerModel.size]. rewrite S1. cbn [add bind]. f_equal; lens.
    + intros cap out L. cbn [SerModel.pack]. unfold sz_size_t. rewrite put_ok by lens. cbn [bind].
      rewrite P1 by lens. rewrite app_assoc. reflexivity.
    + intros [|f] rest F; [lia|]. cbn [SerModel.unpack]. unfold sz_size_t. rewrite <- app_assoc.
      rewrite get_app by apply enc_length. cbn [bind]. rewrite dec_enc by (apply small31, B).
      rewrite Nnat.Nat2N.id. cbn [old_seq]. rewrite firstn_nil. cbn [length app]. rewrite Nat.sub_0_r.
      rewrite U1 by lia. reflexivity.
  - (* list *) intros t l B _ (bs & f0 & S1 & P1 & U1 & _).
    exists (enc 8 (N.of_nat (length l)) ++ bs), (S f0). split; [|split].
    + cbn [SerModel.size]. rewrite S1. cbn [add bind]. f_equal; lens.
    + intros cap out L. cbn [SerModel.pack]. unfold sz_size_t. rewrite put_ok by lens. cbn [bind].
      rewrite P1 by lens. rewrite app_assoc. reflexivity.
    + intros [|f] rest F; [lia|]. cbn [SerModel.unpack]. unfold sz_size_t. rewrite <- app_assoc.
      rewrite get_app by apply enc_length. cbn [bind]. rewrite dec_enc by (apply small31, B).
      rewrite Nnat.Nat2N.id. rewrite U1 by lia. reflexivity.
  - (* set *) intros t l B _ (bs & f0 & S1 & P1 & U1 & _) I.
    exists (enc 8 (N.of_nat (length l)) ++ bs), (S f0). split; [|split].
    + cbn [SerModel.size]. rewrite S1. cbn [add bind]. f_equal; lens.
    + intros cap out L. cbn [SerModel.pack]. unfold sz_size_t. rewrite put_ok by lens. cbn [bind].
      rewrite P1 by lens. rewrite app_assoc. reflexivity.
    + intros [|f] rest F; [lia|]. cbn [SerModel.unpack]. unfold sz_size_t. rewrite <- app_assoc.
      rewrite get_app by apply enc_length. cbn [bind]. rewrite dec_enc by (apply small31, B).
      rewrite Nnat.Nat2N.id. rewrite U1 by lia. cbn [bind old_seq]. rewrite ins_all by exact I. reflexivity.
  - (* map *) intros tk tv l B _ (bs & f0 & S1 & P1 & U1) I.
    exists (enc 8 (N.of_nat (length l)) ++ bs), (S f0). split; [|split].
    + cbn [SerModel.size]. rewrite S1. cbn [add bind]. f_equal; lens.
    + intros cap out L. cbn [SerModel.pack]. unfold sz_size_t. rewrite put_ok by lens. cbn [bind].
      rewrite P1 by lens. rewrite app_assoc. reflexivity.
    + intros [|f] rest F; [lia|]. cbn [SerModel.unpack]. unfold sz_size_t. rewrite <- app_assoc.
      rewrite get_app by apply enc_length. cbn [bind]. rewrite dec_enc by (apply small31, B).
      rewrite Nnat.Nat2N.id. rewrite U1 by lia. cbn [bind old_map]. rewrite assign_all by exact I. reflexivity.
  - (* map over *) intros tk tv l0 l B _ (bs & f0 & S1 & P1 & U1) I K R.
    exists (enc 8 (N.of_nat (length l)) ++ bs), (S f0). split; [|split].
    + cbn [SerModel.size]. rewrite S1. cbn [add bind]. f_equal; lens.
    + intros cap out L. cbn [SerModel.pack]. unfold sz_size_t. rewrite put_ok by lens. cbn [bind].
      rewrite P1 by lens. rewrite app_assoc. reflexivity.
    + intros [|f] rest F; [lia|]. cbn [SerModel.unpack]. unfold sz_size_t. rewrite <- app_assoc.
      rewrite get_app by apply enc_length. cbn [bind]. rewrite dec_enc by (apply small31, B).
      rewrite Nnat.Nat2N.id. rewrite U1 by lia. cbn [bind old_map]. pose proof (assign_over R l l0 [] I K) as Q. cbn [app] in Q. rewrite Q. reflexivity.
  - (* null *) exists (enc 8 null_id), 1. split; [|split].
    + cbn [SerModel.size]. rewrite enc_length. reflexivity.
    + intros cap out L. apply put_ok, L.
    + intros [|f] rest F; [lia|]. cbn [SerModel.unpack]. unfold sz_long. rewrite get_app by apply enc_length.
      cbn [bind]. rewrite dec_enc by reflexivity. rewrite N.eqb_refl. reflexivity.
  - (* obj *) intros o c ms fs R C _ (bs & f0 & S1 & P1 & U1).
    exists (enc 8 c ++ bs), (S f0). split; [|split].
    + cbn [SerModel.size]. rewrite R, S1. cbn [add bind]. f_equal; lens.
    + intros cap out L. cbn [SerModel.pack]. rewrite R. unfold sz_long. rewrite put_ok by lens. cbn [bind].
      rewrite P1 by lens. rewrite app_assoc. reflexivity.
    + intros [|f] rest F; [lia|]. cbn [SerModel.unpack]. unfold sz_long. rewrite <- app_assoc.
      rewrite get_app by apply enc_length. cbn [bind]. rewrite dec_enc by (apply small_null, C).
      replace (c =? null_id)%N with false by (symmetry; apply N.eqb_neq; lia).
      rewrite R. cbn [bind]. rewrite U1 by lia. reflexivity.
  - (* struct *) intros ts os fs _ (bs & f0 & S1 & P1 & U1). exists bs, (S f0). split; [|split].
    + exact S1.
    + intros cap out L. apply P1, L.
    + intros [|f] rest F; [lia|]. cbn [SerModel.unpack old_seq]. rewrite U1 by lia. reflexivity.
  - (* wire null *) intros m n B. exists (enc 4 1 ++ enc 8 n), 1. split; [|split].
    + cbn [SerModel.size]. f_equal; lens.
    + intros cap out L. cbn [SerModel.pack]. unfold sz_int. rewrite put_ok by lens. cbn [bind].
      rewrite put_ok by lens. rewrite app_assoc. reflexivity.
    + intros [|f] rest F; [lia|]. cbn [SerModel.unpack]. unfold sz_int. rewrite <- app_assoc.
      rewrite get_app by apply enc_length. cbn [bind]. rewrite dec_enc by reflexivity.
      replace (1 =? 0)%N with false by reflexivity. rewrite get_app by apply enc_length. cbn [bind].
      rewrite dec_enc by exact B. reflexivity.
  - (* wire *) intros o bs n Z B H. apply N.eqb_neq in Z. exists (enc 4 0 ++ enc 8 n ++ bs), 1. split; [|split].
    + cbn [SerModel.size]. f_equal; lens.
    + intros cap out L. cbn [SerModel.pack]. unfold sz_int. rewrite put_ok by lens. cbn [bind]. rewrite Z.
      rewrite put_ok by lens. cbn [bind]. rewrite <- H, firstn_all, put_ok by lens.
      rewrite !app_assoc. reflexivity.
    + intros [|f] rest F; [lia|]. cbn [SerModel.unpack]. unfold sz_int. rewrite <- !app_assoc.
      rewrite get_app by apply enc_length. cbn [bind]. rewrite dec_enc by reflexivity.
      replace (0 =? 0)%N with true by reflexivity. rewrite get_app by apply enc_length. cbn [bind].
      rewrite dec_enc by exact B. rewrite Z. rewrite get_app by exact H. reflexivity.
  - (* nil *) intros t o. exists [], 0. repeat split; intros; simpl; rewrite ?app_nil_r; reflexivity.
  - (* cons *) intros t o x l _ (b1 & f1 & S1 & P1 & U1) _ (b2 & f2 & S2 & P2 & U2 & V2).
    exists (b1 ++ b2), (Nat.max f1 f2). split; [|split; [|split]].
    + cbn [sum1]. rewrite S1. cbn [bind]. fold (sum1 (size t)). rewrite S2. cbn [add bind]. f_equal; lens.
    + intros cap out L. cbn [out1]. rewrite P1 by lens. cbn [bind]. fold (out1 (pack cap t)).
      rewrite P2 by lens. rewrite app_assoc. reflexivity.
    + intros f rest F. cbn [in_n length]. rewrite <- app_assoc, U1 by lia. cbn [bind].
      fold (in_n (unpack f t o)). rewrite U2 by lia. reflexivity.
    + intros f rest F. cbn [in_slots length repeat]. rewrite <- app_assoc, U1 by lia. cbn [bind].
      fold (in_slots (unpack f t)). rewrite V2 by lia. reflexivity.
  - (* pairs nil *) intros. exists [], 0. repeat split; intros; simpl; rewrite ?app_nil_r; reflexivity.
  - (* pairs cons *) intros tk tv k x l _ (b1 & f1 & S1 & P1 & U1) _ (b2 & f2 & S2 & P2 & U2) _ (b3 & f3 & S3 & P3 & U3).
    exists (b1 ++ b2 ++ b3), (Nat.max f1 (Nat.max f2 f3)). split; [|split].
    + cbn [sum_pairs]. rewrite S1. cbn [bind]. rewrite S2. cbn [bind]. fold (sum_pairs (size tk) (size tv)).
      rewrite S3. cbn [add bind]. f_equal; lens.
    + intros cap out L. cbn [out_pairs]. rewrite P1 by lens. cbn [bind]. rewrite P2 by lens. cbn [bind].
      fold (out_pairs (pack cap tk) (pack cap tv)). rewrite P3 by lens. rewrite !app_assoc. reflexivity.
    + intros f rest F. cbn [length]. apply (in_n_step _ _ _ _ _ (b3 ++ rest)).
      * rewrite <- !app_assoc, U1 by lia. cbn [bind]. rewrite U2 by lia. reflexivity.
      * apply U3. lia.
  - (* members nil *) exists [], 0. repeat split; intros; simpl; rewrite ?app_nil_r; reflexivity.
  - (* members cons *) intros t o x ts os l _ (b1 & f1 & S1 & P1 & U1) _ (b2 & f2 & S2 & P2 & U2).
    exists (b1 ++ b2), (Nat.max f1 f2). split; [|split].
    + cbn [sum_fields]. rewrite S1. cbn [bind]. fold (sum_fields size). rewrite S2. cbn [add bind]. f_equal; lens.
    + intros cap out L. cbn [out_fields]. rewrite P1 by lens. cbn [bind]. fold (out_fields (pack cap)).
      rewrite P2 by lens. rewrite app_assoc. reflexivity.
    + intros f rest F. cbn [in_fields]. rewrite <- app_assoc, U1 by lia. cbn [bind].
      fold (in_fields (unpack f)). rewrite U2 by lia. reflexivity.
Qed.

Lemma holds_good t o v : holds t o v -> good t o v.
Proof. apply good_all. Qed.

End P.
