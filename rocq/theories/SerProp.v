(** Properties of the serializer: C09, C10, C75, C76. *)
From Coq Require Import List Arith NArith Bool Lia.
From Verif Require Import SerModel SerSpec SerProof.
Import ListNotations.

(** ** C09 *)

(** Packing a value into a buffer of the size the sizing pass asked for and reading it
    back, whatever follows it in the buffer, gives the value and leaves exactly what
    follows. [f] bounds the nesting of calls. *)
Theorem C09_round_trip :
  forall reg ltb t o v, holds reg ltb t o v ->
  exists n bs depth, size reg t v = Some n /\ pack reg n t v [] = Some bs /\
    forall f rest, depth <= f -> unpack reg ltb f t o (bs ++ rest) = Some (v, rest).
Proof.
  intros reg ltb t o v H. destruct (holds_good _ _ _ _ _ H) as (bs & f0 & S & P & U).
  exists (length bs), bs, f0. split; [exact S|]. split; [apply (P (length bs) []); simpl; lia|exact U].
Qed.
Print Assumptions C09_round_trip.

(** An object with a map from strings to vectors of integers, a list of booleans and a
    pointer to another object of the same class. *)
Definition ex_reg : registry := fun c =>
  if (c =? 7)%N then Some [(TMap TStr (TVec (TPrim 4)), VMap []); (TList TBool, VSeq []); (TPtr, VNull)] else None.
Definition ex_lt (a b : val) : bool :=
  match a, b with VStr x, VStr y => length x <? length y | _, _ => false end.
Definition ex_in : val := VObj 7 [VMap []; VSeq [VBool true]; VNull].
Definition ex_val : val :=
  VObj 7 [VMap [(VStr [65%N], VSeq [VPrim [1; 0; 0; 0]%N; VPrim [2; 0; 0; 0]%N]); (VStr [66; 67]%N, VSeq [])];
          VSeq [VBool false; VBool true]; ex_in].

Lemma ex_increasing (a b : val * val) : ex_lt (fst a) (fst b) = true -> ex_lt (fst b) (fst a) = false ->
  increasing (fun x y => ex_lt (fst x) (fst y)) [a; b].
Proof.
  intros A B l1 x l2 y l3 E.
  destruct l1 as [|p [|q [|]]]; simpl in E; injection E as; subst; try discriminate.
  - destruct l2 as [|? [|]]; simpl in *; try discriminate; match goal with H : _ = _ |- _ => injection H as; subst end; auto; discriminate.
  - destruct l2; discriminate.
Qed.

Example C09_example : holds ex_reg ex_lt TPtr VNull ex_val.
Proof.
  unfold ex_val, ex_in.
  eapply h_obj; [reflexivity|reflexivity|]. simpl.
  repeat match goal with
  | |- members _ _ _ _ _ => constructor
  | |- all _ _ _ _ _ => constructor
  | |- all_pairs _ _ _ _ _ => constructor
  | |- holds _ _ TPtr VNull VNull => constructor
  | |- holds _ _ TPtr _ (VObj _ _) => eapply h_obj; [reflexivity|reflexivity|simpl]
  | |- holds _ _ (TMap _ _) _ _ => constructor
  | |- holds _ _ _ _ _ => constructor
  | |- _ => reflexivity
  end.
  - apply ex_increasing; reflexivity.
  - intros l1 x l2 y l3 E. destruct l1; discriminate.
Qed.

Example C09_run : exists bs, pack ex_reg 200 TPtr ex_val [] = Some bs /\ length bs = 103 /\
  unpack ex_reg ex_lt 5 TPtr VNull bs = Some (ex_val, []).
Proof. eexists. split; [vm_compute; reflexivity|]. split; vm_compute; reflexivity. Qed.

(** ** C10 *)

Theorem C10_size_exact :
  forall reg ltb t o v, holds reg ltb t o v ->
  exists n bs, size reg t v = Some n /\ pack reg n t v [] = Some bs /\ length bs = n.
Proof.
  intros reg ltb t o v H. destruct (holds_good _ _ _ _ _ H) as (bs & f0 & S & P & _).
  exists (length bs), bs. split; [exact S|]. split; [apply (P (length bs) []); simpl; lia|reflexivity].
Qed.
Print Assumptions C10_size_exact.

Section ValInd.
  Variable P : val -> Prop.
  Hypothesis Hprim : forall bs, P (VPrim bs).
  Hypothesis Hbool : forall b, P (VBool b).
  Hypothesis Hstr : forall bs, P (VStr bs).
  Hypothesis Hbuf : forall p n, P (VBuf p n).
  Hypothesis Hseq : forall l, Forall P l -> P (VSeq l).
  Hypothesis Hmap : forall l, Forall (fun kv => P (fst kv) /\ P (snd kv)) l -> P (VMap l).
  Hypothesis Hnull : P VNull.
  Hypothesis Hobj : forall c l, Forall P l -> P (VObj c l).
  Hypothesis Hundef : P VUndef.
  Fixpoint val_ind2 (v : val) : P v :=
    let lst := fix lst (l : list val) : Forall P l :=
      match l with [] => Forall_nil _ | x :: r => Forall_cons _ (val_ind2 x) (lst r) end in
    match v with
    | VPrim bs => Hprim bs | VBool b => Hbool b | VStr bs => Hstr bs | VBuf p n => Hbuf p n
    | VSeq l => Hseq l (lst l)
    | VMap l => Hmap l ((fix go (l : list (val * val)) : Forall (fun kv => P (fst kv) /\ P (snd kv)) l :=
                  match l with
                  | [] => Forall_nil _
                  | kv :: r => Forall_cons kv (conj (val_ind2 (fst kv)) (val_ind2 (snd kv))) (go r)
                  end) l)
    | VNull => Hnull | VObj c l => Hobj c l (lst l) | VUndef => Hundef
    end.
End ValInd.

Section Overrun.
Variable reg : registry.

Definition fits (v : val) : Prop := forall t s cap out, size reg t v = Some s -> length out + s <= cap ->
  exists o, pack reg cap t v out = Some o /\ length o <= length out + s.

Lemma put_fits cap bs out : length out + length bs <= cap ->
  exists o, put cap bs out = Some o /\ length o = length out + length bs.
Proof. intro H. exists (out ++ bs). split; [apply put_ok, H|apply app_length]. Qed.

Lemma bind_some {A B} (x : option A) (f : A -> option B) b : bind x f = Some b -> exists a, x = Some a /\ f a = Some b.
Proof. destruct x; simpl; [eauto|discriminate]. Qed.

Lemma sum1_fits t : forall l, Forall fits l -> forall s cap out, sum1 (size reg t) l = Some s -> length out + s <= cap ->
  exists o, out1 (pack reg cap t) l out = Some o /\ length o <= length out + s.
Proof.
  induction 1 as [|x l Fx _ IH]; intros s cap out S L; cbn [sum1 out1] in *.
  - injection S as <-. exists out. split; [reflexivity|lia].
  - apply bind_some in S. destruct S as (a & Sa & S). apply bind_some in S. destruct S as (b & Sb & S). injection S as <-.
    destruct (Fx t a cap out Sa ltac:(lia)) as (o & Po & Lo). rewrite Po. cbn [bind].
    destruct (IH b cap o Sb ltac:(lia)) as (o2 & P2 & L2). exists o2. split; [exact P2|lia].
Qed.

Lemma fields_fits : forall l, Forall fits l -> forall ts s cap out, sum_fields (size reg) ts l = Some s -> length out + s <= cap ->
  exists o, out_fields (pack reg cap) ts l out = Some o /\ length o <= length out + s.
Proof.
  induction 1 as [|x l Fx _ IH]; intros [|t ts] s cap out S L; cbn [sum_fields out_fields] in *; try discriminate.
  - injection S as <-. exists out. split; [reflexivity|lia].
  - apply bind_some in S. destruct S as (a & Sa & S). apply bind_some in S. destruct S as (b & Sb & S). injection S as <-.
    destruct (Fx t a cap out Sa ltac:(lia)) as (o & Po & Lo). rewrite Po. cbn [bind].
    destruct (IH ts b cap o Sb ltac:(lia)) as (o2 & P2 & L2). exists o2. split; [exact P2|lia].
Qed.

Lemma pairs_fits tk tv : forall l, Forall (fun kv => fits (fst kv) /\ fits (snd kv)) l ->
  forall s cap out, sum_pairs (size reg tk) (size reg tv) l = Some s -> length out + s <= cap ->
  exists o, out_pairs (pack reg cap tk) (pack reg cap tv) l out = Some o /\ length o <= length out + s.
Proof.
  induction 1 as [|[k x] l [Fk Fx] _ IH]; intros s cap out S L; cbn [sum_pairs out_pairs fst snd] in *.
  - injection S as <-. exists out. split; [reflexivity|lia].
  - apply bind_some in S. destruct S as (a & Sa & S). apply bind_some in S. destruct S as (b & Sb & S).
    apply bind_some in S. destruct S as (c & Sc & S). injection S as <-.
    destruct (Fk tk a cap out Sa ltac:(lia)) as (o & Po & Lo). rewrite Po. cbn [bind].
    destruct (Fx tv b cap o Sb ltac:(lia)) as (o1 & P1 & L1). rewrite P1. cbn [bind].
    destruct (IH c cap o1 Sc ltac:(lia)) as (o2 & P2 & L2). exists o2. split; [exact P2|lia].
Qed.

Ltac flen := pose proof firstn_length; rewrite ?enc_length, ?firstn_length in *; unfold sz_int, sz_size_t, sz_long in *; lia.

Lemma all_fits v : fits v.
Proof.
  induction v using val_ind2; intros t s cap out S L; destruct t; cbn [size] in S; try discriminate S.
  - destruct (length bs =? n) eqn:E; [|discriminate]. apply Nat.eqb_eq in E. injection S as <-. cbn [pack].
    rewrite E, Nat.eqb_refl. destruct (put_fits cap bs out ltac:(lia)) as (o & P & Q). exists o. split; [exact P|lia].
  - destruct (length bs =? n) eqn:E; [|discriminate]. apply Nat.eqb_eq in E. injection S as <-. cbn [pack].
    rewrite E, Nat.eqb_refl. destruct (put_fits cap bs out ltac:(lia)) as (o & P & Q). exists o. split; [exact P|lia].
  - injection S as <-. cbn [pack].
    destruct (put_fits cap (enc sz_int (if b then 1 else 0)) out) as (o & P & Q); [flen|].
    exists o. split; [exact P|flen].
  - injection S as <-. cbn [pack].
    destruct (put_fits cap (enc sz_int (N.of_nat (length bs))) out) as (o & P & Q); [flen|]. rewrite P. cbn [bind].
    destruct (put_fits cap bs o) as (o2 & P2 & Q2); [flen|]. exists o2. split; [exact P2|flen].
  - injection S as <-. cbn [pack]. destruct p as [bs|].
    + destruct (n =? 0)%N.
      * destruct (put_fits cap (enc i 0) out) as (o & P & Q); [flen|]. exists o. split; [exact P|flen].
      * destruct (put_fits cap (enc i n) out) as (o & P & Q); [flen|]. rewrite P. cbn [bind].
        assert (K: length (firstn (N.to_nat n * e) bs) <= N.to_nat n * e) by (rewrite firstn_length; lia).
        destruct (put_fits cap (firstn (N.to_nat n * e) bs) o) as (o2 & P2 & Q2); [rewrite enc_length in Q; lia|].
        exists o2. split; [exact P2|rewrite enc_length in Q; lia].
    + destruct (put_fits cap (enc i 0) out) as (o & P & Q); [flen|]. exists o. split; [exact P|flen].
  - injection S as <-. cbn [pack]. destruct p as [bs|].
    + destruct (n =? 0)%N.
      * destruct (put_fits cap (enc i 0) out) as (o & P & Q); [flen|]. exists o. split; [exact P|flen].
      * destruct (put_fits cap (enc i n) out) as (o & P & Q); [flen|]. rewrite P. cbn [bind].
        assert (K: length (firstn (N.to_nat n) bs) <= N.to_nat n) by (rewrite firstn_length; lia).
        destruct (put_fits cap (firstn (N.to_nat n) bs) o) as (o2 & P2 & Q2); [rewrite enc_length in Q; lia|].
        exists o2. split; [exact P2|rewrite enc_length in Q; lia].
    + destruct (put_fits cap (enc i 0) out) as (o & P & Q); [flen|]. exists o. split; [exact P|flen].
  - injection S as <-. cbn [pack]. destruct p as [bs|].
    + destruct (put_fits cap (enc sz_int 0) out) as (o & P & Q); [flen|]. rewrite P. cbn [bind].
      rewrite enc_length in Q. unfold sz_int in *. destruct (n =? 0)%N.
      * destruct (put_fits cap (enc 8 0) o) as (o2 & P2 & Q2); [rewrite enc_length; lia|]. exists o2.
        split; [exact P2|rewrite enc_length in Q2; lia].
      * destruct (put_fits cap (enc 8 n) o) as (o2 & P2 & Q2); [rewrite enc_length; lia|]. rewrite P2. cbn [bind].
        rewrite enc_length in Q2.
        assert (K: length (firstn (N.to_nat n) bs) <= N.to_nat n) by (rewrite firstn_length; lia).
        destruct (put_fits cap (firstn (N.to_nat n) bs) o2) as (o3 & P3 & Q3); [lia|].
        exists o3. split; [exact P3|lia].
    + destruct (put_fits cap (enc sz_int 1) out) as (o & P & Q); [flen|]. rewrite P. cbn [bind].
      rewrite enc_length in Q. unfold sz_int in *.
      destruct (put_fits cap (enc 8 n) o) as (o2 & P2 & Q2); [rewrite enc_length; lia|]. exists o2.
      split; [exact P2|rewrite enc_length in Q2; lia].
  - apply bind_some in S. destruct S as (a & Sa & S). injection S as <-. cbn [pack].
    destruct (put_fits cap (enc sz_size_t (N.of_nat (length l))) out) as (o & P & Q); [flen|]. rewrite P. cbn [bind].
    rewrite enc_length in Q. unfold sz_size_t, sz_long in *. destruct (sum1_fits t l H a cap o Sa ltac:(lia)) as (o2 & P2 & Q2). exists o2. split; [exact P2|lia].
  - apply bind_some in S. destruct S as (a & Sa & S). injection S as <-. cbn [pack].
    destruct (put_fits cap (enc sz_size_t (N.of_nat (length l))) out) as (o & P & Q); [flen|]. rewrite P. cbn [bind].
    rewrite enc_length in Q. unfold sz_size_t, sz_long in *. destruct (sum1_fits t l H a cap o Sa ltac:(lia)) as (o2 & P2 & Q2). exists o2. split; [exact P2|lia].
  - apply bind_some in S. destruct S as (a & Sa & S). injection S as <-. cbn [pack].
    destruct (put_fits cap (enc sz_size_t (N.of_nat (length l))) out) as (o & P & Q); [flen|]. rewrite P. cbn [bind].
    rewrite enc_length in Q. unfold sz_size_t, sz_long in *. destruct (sum1_fits t l H a cap o Sa ltac:(lia)) as (o2 & P2 & Q2). exists o2. split; [exact P2|lia].
  - cbn [pack]. apply (fields_fits l H ts s cap out S L).
  - apply bind_some in S. destruct S as (a & Sa & S). injection S as <-. cbn [pack].
    destruct (put_fits cap (enc sz_size_t (N.of_nat (length l))) out) as (o & P & Q); [flen|]. rewrite P. cbn [bind].
    rewrite enc_length in Q. unfold sz_size_t, sz_long in *. destruct (pairs_fits t1 t2 l H a cap o Sa ltac:(lia)) as (o2 & P2 & Q2). exists o2. split; [exact P2|lia].
  - injection S as <-. cbn [pack]. destruct (put_fits cap (enc sz_long null_id) out) as (o & P & Q); [flen|].
    exists o. split; [exact P|flen].
  - cbn [pack]. destruct (reg c) as [ms|]; [|discriminate].
    apply bind_some in S. destruct S as (a & Sa & S). injection S as <-.
    destruct (put_fits cap (enc sz_long c) out) as (o & P & Q); [flen|]. rewrite P. cbn [bind].
    rewrite enc_length in Q. unfold sz_size_t, sz_long in *. destruct (fields_fits l H (map fst ms) a cap o Sa ltac:(lia)) as (o2 & P2 & Q2).
    exists o2. split; [exact P2|lia].
Qed.
End Overrun.

(** Whatever the value, null buffers with a stale size included: if the sizing pass
    gives n bytes then packing into n bytes does not overrun. *)
Theorem C10_never_overruns :
  forall reg t v n, size reg t v = Some n -> exists bs, pack reg n t v [] = Some bs /\ length bs <= n.
Proof. intros reg t v n S. apply (all_fits reg v t n n [] S). simpl. lia. Qed.
Print Assumptions C10_never_overruns.

(** But the size is not always exact: a null typed buffer with a nonzero size member is
    sized as if the data were there. *)
Theorem C10_size_exact_refuted :
  exists reg t v n bs, size reg t v = Some n /\ pack reg n t v [] = Some bs /\ length bs < n.
Proof.
  exists (fun _ => None), (TBin 8 4), (VBuf None 3), 20, (enc 8 0).
  split; [reflexivity|]. split; [reflexivity|]. vm_compute. lia.
Qed.
Print Assumptions C10_size_exact_refuted.

(** ** C75: null pointers *)

(** A null pointer in a std::list is read back as an uninitialised pointer. *)
Theorem C75_null_pointer_refuted :
  exists reg ltb v bs, pack reg 100 (TList TPtr) v [] = Some bs /\ v = VSeq [VNull] /\
    unpack reg ltb 3 (TList TPtr) (VSeq []) bs = Some (VSeq [VUndef], []).
Proof.
  exists (fun _ => None), (fun _ _ => false), (VSeq [VNull]). eexists.
  split; [vm_compute; reflexivity|]. split; [reflexivity|]. vm_compute. reflexivity.
Qed.
Print Assumptions C75_null_pointer_refuted.

(** In a vector (whose new elements are value-initialised) nulls are kept: [VNull] is
    among the values that [holds] allows for a null target. *)
Theorem C75_null_in_vector_partial :
  forall reg ltb l, (forall v, In v l -> holds reg ltb TPtr VNull v) ->
  (N.of_nat (length l) < 2 ^ 31)%N ->
  exists n bs depth, size reg (TVec TPtr) (VSeq l) = Some n /\ pack reg n (TVec TPtr) (VSeq l) [] = Some bs /\
    forall f rest, depth <= f -> unpack reg ltb f (TVec TPtr) (VSeq []) (bs ++ rest) = Some (VSeq l, rest).
Proof.
  intros reg ltb l H B. apply (C09_round_trip reg ltb). constructor; [exact B|]. clear B.
  induction l as [|x l IH]; constructor.
  - apply H. left. reflexivity.
  - apply IH. intros v V. apply H. right. exact V.
Qed.
Print Assumptions C75_null_in_vector_partial.

(** ** C76: a packet crossing ranks *)

Definition ex_packet (delay : N) : list val :=
  [VPrim (enc 4 3); VPrim (enc 4 1); VPrim (enc 8 9); VPrim (enc 4 64); VPrim (enc 4 0); VNull;
   VPrim (enc 16 1); VPrim (enc 8 0); VPrim (enc 8 0); VPrim (enc 16 1000); VPrim (enc 4 2);
   VPrim (enc 8 delay); VPrim [0%N]; VPrim [1; 2; 3]%N; VPrim (enc 2 0)].

(** The byte delay of a PISCES packet is lost on the way: it arrives as zero. *)
Theorem C76_packet_state_refuted :
  exists reg ltb fuel fs fs', transfer_pisces reg ltb fuel fs = Some fs' /\
    nth 11 fs VUndef = VPrim (enc 8 25) /\ nth 11 fs' VUndef = VPrim (enc 8 0).
Proof.
  exists (fun _ => None), (fun _ _ => false), 5, (ex_packet 25). eexists.
  split; [vm_compute; reflexivity|]. split; reflexivity.
Qed.
Print Assumptions C76_packet_state_refuted.

(** The members that are mentioned do arrive. *)
Theorem C76_packet_state_partial :
  forall reg ltb fs rest, members reg ltb pisces_ty pisces_new fs ->
  exists depth, forall f, depth <= f -> transfer_pisces reg ltb f (fs ++ rest) = Some (fs ++ pisces_rest_new).
Proof.
  intros reg ltb fs rest M.
  assert (L: length fs = length pisces_ty).
  { clear - M. revert M. generalize pisces_ty pisces_new. intros ts os M. induction M; simpl; congruence. }
  destruct (C09_round_trip reg ltb (TStruct pisces_ty) (VSeq pisces_new) (VSeq fs)) as (n & bs & d & S & P & U);
    [constructor; exact M|].
  exists d. intros f F. unfold transfer_pisces. cbv zeta.
  replace (firstn (length pisces_ty) (fs ++ rest)) with fs.
  - rewrite S, P. specialize (U f [] F). rewrite app_nil_r in U. rewrite U. reflexivity.
  - rewrite <- L, firstn_app, Nat.sub_diag, firstn_all. simpl. rewrite app_nil_r. reflexivity.
Qed.
Print Assumptions C76_packet_state_partial.

Example C76_example : members (fun _ => None) (fun _ _ => false) pisces_ty pisces_new (firstn 11 (ex_packet 25)).
Proof. repeat constructor. Qed.
