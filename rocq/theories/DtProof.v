(** Facts about derived datatypes. *)
From Coq Require Import List Arith ZArith Bool Lia.
From Verif Require Import ListFacts DtModel DtSpec.
Import ListNotations.
Local Open Scope Z_scope.

(** ** Induction over nested types *)

Section DtInd.
  Variable P : dt -> Prop.
  Hypothesis Hp : forall n, P (DPrim n).
  Hypothesis Hc : forall c o, P o -> P (DContig c o).
  Hypothesis Hv : forall c b s o, P o -> P (DVec c b s o).
  Hypothesis Hh : forall c b s o, P o -> P (DHvec c b s o).
  Hypothesis Hi : forall l o, P o -> P (DIndexed l o).
  Hypothesis Hhi : forall l o, P o -> P (DHindexed l o).
  Hypothesis Hs : forall l, (forall e, In e l -> P (snd e)) -> P (DStruct l).

  Fixpoint dt_ind' (d : dt) : P d :=
    match d with
    | DPrim n => Hp n
    | DContig c o => Hc c o (dt_ind' o)
    | DVec c b s o => Hv c b s o (dt_ind' o)
    | DHvec c b s o => Hh c b s o (dt_ind' o)
    | DIndexed l o => Hi l o (dt_ind' o)
    | DHindexed l o => Hhi l o (dt_ind' o)
    | DStruct l =>
      Hs l ((fix go (l : list (nat * Z * dt)) : forall e, In e l -> P (snd e) :=
               match l with
               | [] => fun e H => match H with end
               | x :: t => fun e H =>
                 match H with
                 | or_introl E => eq_ind x (fun y => P (snd y)) (dt_ind' (snd x)) e E
                 | or_intror K => go t e K
                 end
               end) l)
    end.
End DtInd.

Section MtInd.
  Variable P : mtype -> Prop.
  Hypothesis Hp : forall n, P (Prim n).
  Hypothesis Hv : forall b c k s, P b -> P (Vec b c k s).
  Hypothesis Hi : forall bl s e, (forall x, In x bl -> P (fst (fst x))) -> P (Ind bl s e).

  Fixpoint mtype_ind' (t : mtype) : P t :=
    match t with
    | Prim n => Hp n
    | Vec b c k s => Hv b c k s (mtype_ind' b)
    | Ind bl s e =>
      Hi bl s e ((fix go (l : list (mtype * Z * nat)) : forall x, In x l -> P (fst (fst x)) :=
               match l with
               | [] => fun x H => match H with end
               | y :: t => fun x H =>
                 match H with
                 | or_introl E => eq_ind y (fun z => P (fst (fst z))) (mtype_ind' (fst (fst y))) x E
                 | or_intror K => go t x K
                 end
               end) bl)
    end.
End MtInd.

(** ** Sequences *)

Lemma zseq_length : forall n, length (zseq n) = n.
Proof. intros n. unfold zseq. now rewrite map_length, seq_length. Qed.

Lemma in_zseq : forall n x, In x (zseq n) <-> 0 <= x < Z.of_nat n.
Proof.
  intros n x. unfold zseq. rewrite in_map_iff. split.
  - intros (k & <- & H). apply in_seq in H. lia.
  - intros H. exists (Z.to_nat x). split; [lia|]. apply in_seq. lia.
Qed.

Lemma zseq_S : forall n, zseq (S n) = zseq n ++ [Z.of_nat n].
Proof. intros n. unfold zseq. rewrite seq_S, map_app. reflexivity. Qed.

Lemma zseq_app : forall a b, zseq (a + b) = zseq a ++ map (Z.add (Z.of_nat a)) (zseq b).
Proof.
  intros a b. unfold zseq. rewrite seq_app, map_app, map_map. f_equal. cbn [Nat.add].
  assert (G : forall n s, map Z.of_nat (seq (a + s) n) = map (fun x => Z.of_nat a + Z.of_nat x) (seq s n)).
  { induction n as [|n IH]; intros s; cbn [seq map]; [reflexivity|]. f_equal; [lia|].
    rewrite <- Nat.add_succ_r. apply IH. }
  specialize (G b O). rewrite Nat.add_0_r in G. exact G.
Qed.

Lemma zseq_nodup : forall n, NoDup (zseq n).
Proof.
  intros n. unfold zseq. apply FinFun.Injective_map_NoDup; [|apply seq_NoDup].
  intros a b H. lia.
Qed.

Lemma zseq_1 : zseq 1 = [0].
Proof. reflexivity. Qed.

Lemma shift_length : forall a l, length (shift a l) = length l.
Proof. intros. apply map_length. Qed.

Lemma shift_0 : forall l, shift 0 l = l.
Proof. intros l. unfold shift. rewrite <- (map_id l) at 2. apply map_ext. intros. lia. Qed.

Lemma shift_shift : forall a b l, shift a (shift b l) = shift (a + b) l.
Proof. intros a b l. unfold shift. rewrite map_map. apply map_ext. intros. lia. Qed.

Lemma shift_app : forall a l k, shift a (l ++ k) = shift a l ++ shift a k.
Proof. intros. apply map_app. Qed.

Lemma shift_flat_map : forall A (f : A -> list Z) x l,
  shift x (flat_map f l) = flat_map (fun e => shift x (f e)) l.
Proof.
  intros A f x. induction l as [|a t IH]; [reflexivity|]. cbn [flat_map]. now rewrite shift_app, IH.
Qed.

Lemma map_flat_map : forall A B C (g : B -> C) (f : A -> list B) l,
  map g (flat_map f l) = flat_map (fun x => map g (f x)) l.
Proof.
  intros A B C g f. induction l as [|a t IH]; [reflexivity|]. cbn [flat_map]. now rewrite map_app, IH.
Qed.

Lemma flat_map_ext' : forall A B (f g : A -> list B) l,
  (forall x, In x l -> f x = g x) -> flat_map f l = flat_map g l.
Proof.
  intros A B f g. induction l as [|a t IH]; intros H; [reflexivity|]. cbn [flat_map].
  rewrite (H a (or_introl eq_refl)), IH; auto. intros x Hx. apply H. now right.
Qed.

Lemma flat_map_length_const : forall A B (f : A -> list B) k l,
  (forall x, In x l -> length (f x) = k) -> length (flat_map f l) = (length l * k)%nat.
Proof.
  intros A B f k. induction l as [|a t IH]; intros H; [reflexivity|]. cbn [flat_map length].
  rewrite app_length, (H a (or_introl eq_refl)), IH by (intros; apply H; now right). lia.
Qed.

Lemma copies_length : forall n e l, length (copies n e l) = (n * length l)%nat.
Proof.
  intros n e l. unfold copies. rewrite (flat_map_length_const _ _ _ (length l)).
  - now rewrite zseq_length.
  - intros x _. apply map_length.
Qed.

Lemma copies_1 : forall e l, copies 1 e l = l.
Proof. intros. unfold copies. rewrite zseq_1. cbn [flat_map]. rewrite app_nil_r. apply shift_0. Qed.

Lemma copies_zseq : forall n s, copies n (Z.of_nat s) (zseq s) = zseq (n * s).
Proof.
  induction n as [|n IH]; intros s; [reflexivity|].
  unfold copies in *. rewrite zseq_S, flat_map_app, IH. cbn [flat_map]. rewrite app_nil_r.
  replace (S n * s)%nat with (n * s + s)%nat by lia. rewrite zseq_app. f_equal.
  unfold shift. apply map_ext. intros. lia.
Qed.

Lemma fold_max_ge : forall l a x, In x (a :: l) -> x <= fold_right Z.max a l.
Proof.
  induction l as [|b t IH]; intros a x H; cbn [fold_right].
  - destruct H as [<- | []]. lia.
  - pose proof (IH a a (or_introl eq_refl)). destruct H as [<- | [<- | H]]; try lia.
    specialize (IH a x (or_intror H)). lia.
Qed.
Lemma fold_max_in : forall l a, In (fold_right Z.max a l) (a :: l).
Proof.
  induction l as [|b t IH]; intros a; [now left|]. cbn [fold_right]. destruct (IH a) as [E|E].
  - rewrite <- E. destruct (Z.max_spec b a) as [(_ & ->)|(_ & ->)]; [now left|right; now left].
  - destruct (Z.max_spec b (fold_right Z.max a t)) as [(_ & ->)|(_ & ->)]; right; [now right|now left].
Qed.
Lemma fold_min_le : forall l a x, In x (a :: l) -> fold_right Z.min a l <= x.
Proof.
  induction l as [|b t IH]; intros a x H; cbn [fold_right].
  - destruct H as [<- | []]. lia.
  - pose proof (IH a a (or_introl eq_refl)). destruct H as [<- | [<- | H]]; try lia.
    specialize (IH a x (or_intror H)). lia.
Qed.
Lemma fold_min_in : forall l a, In (fold_right Z.min a l) (a :: l).
Proof.
  induction l as [|b t IH]; intros a; [now left|]. cbn [fold_right]. destruct (IH a) as [E|E].
  - rewrite <- E. destruct (Z.min_spec b a) as [(_ & ->)|(_ & ->)]; [right; now left|now left].
  - destruct (Z.min_spec b (fold_right Z.min a t)) as [(_ & ->)|(_ & ->)]; right; [now left|now right].
Qed.

Lemma hull_zseq : forall n, hull (zseq n) = Z.of_nat n.
Proof.
  intros n. destruct n as [|n]; [reflexivity|].
  unfold hull. destruct (zseq (S n)) as [|x t] eqn:E; [apply (f_equal (@length Z)) in E; rewrite zseq_length in E; discriminate|].
  assert (G : forall y, In y (x :: t) <-> 0 <= y < Z.of_nat (S n)) by (intros y; rewrite <- E; apply in_zseq).
  pose proof (proj1 (G _) (fold_max_in t x)). pose proof (proj1 (G _) (fold_min_in t x)).
  pose proof (fold_max_ge t x (Z.of_nat n) (proj2 (G (Z.of_nat n)) ltac:(lia))).
  pose proof (fold_min_le t x 0 (proj2 (G 0) ltac:(lia))). lia.
Qed.

(** ** Copying *)

Lemma pack_with_out : forall A mv (src p : mem A) x, ~ In x (map fst mv) -> pack_with mv src p x = p x.
Proof.
  intros A. induction mv as [|[a b] t IH]; intros src p x H; [reflexivity|].
  unfold pack_with. cbn [fold_left fst snd]. fold (pack_with t src (mset p a (src b))).
  rewrite IH by (intros K; apply H; now right).
  unfold mset. destruct (Z.eqb_spec x a) as [->|]; [|reflexivity]. exfalso. apply H. now left.
Qed.

Lemma pack_with_in : forall A mv (src p : mem A) a b, NoDup (map fst mv) -> In (a, b) mv ->
  pack_with mv src p a = src b.
Proof.
  intros A. induction mv as [|[a' b'] t IH]; intros src p a b ND H; [destruct H|].
  cbn [map fst] in ND. inversion ND as [|? ? N ND']; subst.
  unfold pack_with. cbn [fold_left fst snd]. fold (pack_with t src (mset p a' (src b'))).
  destruct H as [E|H].
  - injection E as -> ->. rewrite pack_with_out by exact N. unfold mset. now rewrite Z.eqb_refl.
  - now apply IH.
Qed.

Lemma unpack_with_same : forall A mv (packed u : mem A) (src : mem A) x,
  (forall a b, In (a, b) mv -> packed a = src b) ->
  (In x (map snd mv) -> unpack_with mv packed u x = src x)
  /\ (~ In x (map snd mv) -> unpack_with mv packed u x = u x).
Proof.
  intros A. induction mv as [|[a b] t IH]; intros packed u src x H.
  - split; [intros []|reflexivity].
  - unfold unpack_with. cbn [fold_left fst snd map]. fold (unpack_with t packed (mset u b (packed a))).
    destruct (IH packed (mset u b (packed a)) src x) as (I1 & I2); [intros; apply H; now right|].
    split.
    + intros K. destruct (in_dec Z.eq_dec x (map snd t)) as [K'|K']; [now apply I1|].
      rewrite I2 by exact K'. destruct K as [<- | K]; [|contradiction].
      unfold mset. rewrite Z.eqb_refl. apply H. now left.
    + intros K. rewrite I2 by (intros K'; apply K; now right).
      unfold mset. destruct (Z.eqb_spec x b) as [->|]; [|reflexivity]. exfalso. apply K. now left.
Qed.

(** Copying with one list of moves both ways. *)
Lemma transfer_same : forall A mv (junk src dst : mem A) x, NoDup (map fst mv) ->
  let out := unpack_with mv (pack_with mv src junk) dst in
  (In x (map snd mv) -> out x = src x) /\ (~ In x (map snd mv) -> out x = dst x).
Proof.
  intros A mv junk src dst x ND out. apply unpack_with_same.
  intros a b H. now apply pack_with_in.
Qed.

(** ** The packed side *)

Definition in_range (lo : Z) (n : nat) (l : list Z) : Prop :=
  NoDup l /\ forall x, In x l -> lo <= x < lo + Z.of_nat n.

Lemma run_fst : forall n po uo, map fst (run n po uo) = shift po (zseq n).
Proof. intros. unfold run, shift. rewrite map_map. reflexivity. Qed.
Lemma run_snd : forall n po uo, map snd (run n po uo) = shift uo (zseq n).
Proof. intros. unfold run, shift. rewrite map_map. reflexivity. Qed.

Lemma shift_nodup : forall x l, NoDup l -> NoDup (shift x l).
Proof. intros x l H. apply FinFun.Injective_map_NoDup; auto. intros a b E. lia. Qed.

Lemma in_shift : forall x l y, In y (shift x l) <-> In (y - x) l.
Proof.
  intros x l y. unfold shift. rewrite in_map_iff. split.
  - intros (z & <- & H). replace (x + z - x) with z by lia. exact H.
  - intros H. exists (y - x). split; [lia|exact H].
Qed.

Lemma run_range : forall n po uo, in_range po n (map fst (run n po uo)).
Proof.
  intros n po uo. rewrite run_fst. split; [apply shift_nodup, zseq_nodup|].
  intros x H. apply in_shift, in_zseq in H. lia.
Qed.

Lemma chunks_range : forall A (f : Z -> list A) (g : A -> Z) po s n,
  (forall j, 0 <= j < Z.of_nat n -> in_range (po + j * Z.of_nat s) s (map g (f j))) ->
  in_range po (n * s) (map g (flat_map f (zseq n))).
Proof.
  intros A f g po s. induction n as [|n IH]; intros H.
  - split; [constructor|intros x []].
  - rewrite zseq_S, flat_map_app, map_app. cbn [flat_map]. rewrite app_nil_r.
    destruct IH as (N1 & R1); [intros j Hj; apply H; lia|].
    destruct (H (Z.of_nat n)) as (N2 & R2); [lia|]. split.
    + apply nodup_app; auto. intros x A1 A2. specialize (R1 x A1). specialize (R2 x A2). lia.
    + intros x Hx. apply in_app_or in Hx. destruct Hx as [Hx|Hx].
      * specialize (R1 x Hx). lia.
      * specialize (R2 x Hx). lia.
Qed.

Lemma in_range_weaken : forall lo n m l, (n <= m)%nat -> in_range lo n l -> in_range lo m l.
Proof. intros lo n m l H (A & B). split; auto. intros x Hx. specialize (B x Hx). lia. Qed.

Definition blocks_size (bl : list (mtype * Z * nat)) : nat :=
  fold_right (fun e s => (msize (fst (fst e)) * snd e + s)%nat) O bl.

(** Types whose blocks are not empty and whose size is that of its parts. *)
Inductive wfm : mtype -> Prop :=
| wf_prim : forall n, wfm (Prim n)
| wf_vec : forall b c k s, (c = 0 \/ 1 <= k)%nat -> wfm b -> wfm (Vec b c k s)
| wf_ind : forall bl s e, s = blocks_size bl -> (forall x, In x bl -> wfm (fst (fst x))) -> wfm (Ind bl s e).

(** The loop of pack_action_indexed. *)
Fixpoint ind_moves (l : list (mtype * Z * nat)) (po uo : Z) : list (Z * Z) :=
  match l with
  | [] => []
  | (b, _, n) :: r =>
    (if mcontig b then run (msize b * n) po uo
     else flat_map (fun i => moves b (po + i * Z.of_nat (msize b)) (uo + i * mext b)) (zseq n))
    ++ ind_moves r (po + Z.of_nat (msize b * n)) (uo + mext b * Z.of_nat n)
  end.

Lemma moves_ind : forall bl s e po uo, moves (Ind bl s e) po uo = ind_moves bl po uo.
Proof.
  intros bl s e. cbn [moves]. induction bl as [|[[b d] n] t IH]; intros po uo; [reflexivity|].
  cbn [ind_moves]. f_equal.
Qed.

Lemma moves_range : forall t, wfm t -> forall po uo, in_range po (msize t) (map fst (moves t po uo)).
Proof.
  induction t as [n|b c k s IH|bl s e IH] using mtype_ind'; intros W po uo.
  - apply run_range.
  - inversion W as [|? ? ? ? K Wb|]; subst. cbn [moves msize].
    apply in_range_weaken with (n := (c * msize b)%nat).
    + destruct K as [->|K]; [lia|]. rewrite (Nat.mul_comm c k), <- Nat.mul_assoc. nia.
    + apply chunks_range. intros j Hj. now apply IH.
  - inversion W as [| |? ? ? E Wb]; subst. rewrite moves_ind. cbn [msize]. clear W.
    revert po uo. induction bl as [|[[b d] n] t IHt]; intros po uo.
    + split; [constructor|intros x []].
    + cbn [ind_moves blocks_size fold_right fst snd]. fold (blocks_size t). rewrite map_app.
      assert (R1 : in_range po (msize b * n)
          (map fst (if mcontig b then run (msize b * n) po uo
           else flat_map (fun i => moves b (po + i * Z.of_nat (msize b)) (uo + i * mext b)) (zseq n)))).
      { destruct (mcontig b); [apply run_range|]. rewrite Nat.mul_comm. apply chunks_range.
        intros j Hj. apply (IH (b, d, n)); [now left|]. apply (Wb (b, d, n)). now left. }
      destruct R1 as (N1 & R1).
      destruct (IHt (fun x Hx => IH x (or_intror Hx)) (fun x Hx => Wb x (or_intror Hx))
                  (po + Z.of_nat (msize b * n)) (uo + mext b * Z.of_nat n)) as (N2 & R2).
      split.
      * apply nodup_app; auto. intros x A1 A2. specialize (R1 x A1). specialize (R2 x A2). lia.
      * intros x Hx. apply in_app_or in Hx. destruct Hx as [Hx|Hx].
        -- specialize (R1 x Hx). lia.
        -- specialize (R2 x Hx). lia.
Qed.

Lemma bytes_range : forall t n, wfm t -> in_range 0 (n * msize t) (map fst (bytes_moved t n)).
Proof.
  intros t n W. unfold bytes_moved. destruct (mcontig t); [apply run_range|].
  unfold packn. apply chunks_range. intros j Hj. rewrite Z.add_0_l. now apply moves_range.
Qed.

(** ** Sizes *)

Lemma hidx_blocks_size : forall t l x, blocks_size (hidx_blocks t x l) = hidx_size t l.
Proof.
  induction l as [|[n d] r IH]; intros x; cbn [hidx_blocks hidx_size]; [reflexivity|].
  destruct n as [|n]; [cbn; apply IH|]. cbn [blocks_size fold_right fst snd].
  fold (blocks_size (hidx_blocks t (x + d) r)). rewrite IH. lia.
Qed.

Lemma struct_blocks_size : forall l, blocks_size (struct_blocks l) = struct_size l.
Proof.
  induction l as [|[[n d] t] r IH]; [reflexivity|]. unfold struct_blocks, struct_size in *.
  cbn [filter fold_right fst snd]. destruct (Nat.eqb_spec n 0) as [->|N]; cbn [negb].
  - rewrite IH. lia.
  - cbn [map blocks_size fold_right fst snd]. fold (blocks_size (map (fun e : nat * Z * mtype => (snd e, snd (fst e), fst (fst e)))
       (filter (fun e => negb (Nat.eqb (fst (fst e)) 0)) r))). rewrite IH. lia.
Qed.

Lemma hidx_size_len : forall t l k, msize t = k ->
  hidx_size t l = fold_right (fun e s => (fst e * k + s)%nat) O l.
Proof.
  intros t l k E. induction l as [|[n d] r IH]; [reflexivity|]. cbn [hidx_size fold_right fst]. now rewrite IH, E.
Qed.

Lemma indexed_len : forall l (g : nat * Z -> Z) e m,
  length (flat_map (fun x => shift (g x) (copies (fst x) e m)) l)
  = fold_right (fun x s => (fst x * length m + s)%nat) O l.
Proof.
  induction l as [|x r IH]; intros g e m; [reflexivity|]. cbn [flat_map fold_right].
  rewrite app_length, IH. unfold shift at 1. now rewrite map_length, copies_length.
Qed.

Lemma size_build : forall d, msize (build d) = length (tmap d).
Proof.
  induction d as [n|c o IH|c b s o IH|c b s o IH|l o IH|l o IH|l IH] using dt_ind'; cbn [build tmap msize hindexed].
  - now rewrite zseq_length.
  - rewrite copies_length. lia.
  - rewrite !copies_length. lia.
  - rewrite !copies_length. lia.
  - rewrite (hidx_size_len _ _ _ IH), indexed_len. clear IH. induction l as [|x r IH]; [reflexivity|].
    cbn [map fold_right fst]. now rewrite IH.
  - now rewrite (hidx_size_len _ _ _ IH), indexed_len.
  - induction l as [|x r IHl]; [reflexivity|]. cbn [map struct_size fold_right flat_map fst snd].
    rewrite app_length. fold (struct_size (map (fun e => (fst e, build (snd e))) r)).
    rewrite IHl by (intros e He; apply IH; now right).
    rewrite (IH x (or_introl eq_refl)). rewrite shift_length, copies_length. lia.
Qed.

(** Block lengths of vectors are positive. *)
Fixpoint blocks_pos (d : dt) : Prop :=
  match d with
  | DPrim _ => True
  | DContig _ o => blocks_pos o
  | DVec _ b _ o | DHvec _ b _ o => (1 <= b)%nat /\ blocks_pos o
  | DIndexed _ o | DHindexed _ o => blocks_pos o
  | DStruct l => fold_right (fun e P => blocks_pos (snd e) /\ P) True l
  end.

Lemma hidx_wf : forall t l x y, wfm t -> In y (hidx_blocks t x l) -> wfm (fst (fst y)).
Proof.
  induction l as [|[n d] r IH]; intros x y W H; cbn [hidx_blocks] in H; [destruct H|].
  destruct n as [|n]; [eapply IH; eauto|]. destruct H as [<- | H]; [exact W|]. eapply IH; eauto.
Qed.

Lemma build_wf : forall d, blocks_pos d -> wfm (build d).
Proof.
  induction d as [n|c o IH|c b s o IH|c b s o IH|l o IH|l o IH|l IH] using dt_ind'; intros B; cbn [build blocks_pos] in *.
  - constructor.
  - constructor; auto.
  - constructor; [lia|]. apply IH, B.
  - constructor; [lia|]. apply IH, B.
  - unfold hindexed. constructor; [symmetry; apply hidx_blocks_size|]. intros x. now apply hidx_wf, IH.
  - unfold hindexed. constructor; [symmetry; apply hidx_blocks_size|]. intros x. now apply hidx_wf, IH.
  - constructor; [symmetry; apply struct_blocks_size|]. intros x Hx. unfold struct_blocks in Hx.
    apply in_map_iff in Hx. destruct Hx as (e & <- & He). apply filter_In in He. destruct He as (He & _).
    apply in_map_iff in He. destruct He as (e' & <- & He). cbn [fst snd]. apply IH; auto.
    clear IH. induction l as [|y t IHl]; [destruct He|]. cbn [fold_right] in B.
    destruct He as [<- | He]; [apply B|apply IHl; auto; apply B].
Qed.

(** ** Types that are handled as MPI says *)

Fixpoint adjacent (p : Z) (l : list (nat * Z * dt)) : Prop :=
  match l with
  | [] => True
  | e :: r => snd (fst e) = p /\ adjacent (p + Z.of_nat (fst (fst e)) * dext (snd e)) r
  end.

(** A block of bytes without gaps: primitives, and structs of such without padding. *)
Fixpoint solid (d : dt) : Prop :=
  match d with
  | DPrim n => (0 < n)%nat
  | DContig c o => c = 1%nat /\ solid o
  | DVec c b s o => c = 1%nat /\ b = 1%nat /\ s = 1 /\ solid o
  | DStruct l => l <> [] /\ adjacent 0 l
      /\ fold_right (fun e P => ((0 < fst (fst e))%nat /\ solid (snd e)) /\ P) True l
  | _ => False
  end.

(** Vectors of single elements. *)
Fixpoint spread (d : dt) : Prop :=
  match d with
  | DVec c b s o => b = 1%nat /\ solid o
  | DHvec c b s o => b = 1%nat /\ (solid o \/ (spread o /\ mcontig (build o) = false))
  | _ => False
  end.

Lemma fold_and : forall A (P : A -> Prop) l, fold_right (fun e Q => P e /\ Q) True l <-> forall e, In e l -> P e.
Proof.
  intros A P. induction l as [|x t IH]; cbn [fold_right In].
  - split; [intros _ e []|auto].
  - rewrite IH. split.
    + intros (H1 & H2) e [<- | H]; auto.
    + intros H. split; auto.
Qed.

Lemma struct_solid : forall l p, adjacent p l ->
  (forall e, In e l -> (0 < fst (fst e))%nat /\ tmap (snd e) = zseq (msize (build (snd e)))) ->
  let l' := map (fun e => (fst e, build (snd e))) l in
  flat_map (fun e => shift (snd (fst e)) (copies (fst (fst e)) (hull (tmap (snd e))) (tmap (snd e)))) l
    = shift p (zseq (struct_size l'))
  /\ forall x, x = p -> fold_left (fun x e => if Nat.eqb (fst (fst e)) 0 then x
                        else snd (fst e) + Z.of_nat (msize (snd e) * fst (fst e))) l' x
     = p + Z.of_nat (struct_size l').
Proof.
  induction l as [|e t IH]; intros p A H l'.
  - split; [reflexivity|]. intros x ->. cbn. lia.
  - cbn [adjacent] in A. destruct A as (E & A). destruct (H e (or_introl eq_refl)) as (N & T).
    assert (D : dext (snd e) = Z.of_nat (msize (build (snd e)))) by (unfold dext; rewrite T at 1; apply hull_zseq).
    rewrite D in A. destruct (IH _ A) as (I1 & I2); [intros x Hx; apply H; now right|]. cbv zeta in *.
    unfold l'. cbn [map struct_size fold_right flat_map fold_left fst snd].
    fold (struct_size (map (fun e => (fst e, build (snd e))) t)). split.
    + rewrite I1, E. unfold dext in D. rewrite D. rewrite T at 1. rewrite copies_zseq, Nat.mul_comm, zseq_app, shift_app.
      f_equal. change (map (Z.add ?a) ?b) with (shift a b). rewrite shift_shift. f_equal. lia.
    + intros x _. destruct (Nat.eqb_spec (fst (fst e)) 0); [lia|]. rewrite I2 by lia. lia.
Qed.

Lemma solid_spec : forall d, solid d ->
  tmap d = zseq (msize (build d)) /\ mext (build d) = Z.of_nat (msize (build d))
  /\ mcontig (build d) = true.
Proof.
  induction d as [n|c o IH|c b s o IH|c b s o IH|l o IH|l o IH|l IH] using dt_ind'; intros S; cbn [solid] in S; try contradiction.
  - cbn. auto.
  - destruct S as (-> & S). destruct (IH S) as (A & B & C). cbn [tmap build msize mext mcontig].
    rewrite copies_1. replace (1 * 1 * msize (build o))%nat with (msize (build o)) by lia.
    split; [exact A|]. split; [rewrite B; lia|]. rewrite C, andb_true_r. apply Z.eqb_eq. lia.
  - destruct S as (-> & -> & -> & S). destruct (IH S) as (A & B & C). cbn [tmap build msize mext mcontig].
    rewrite !copies_1. replace (1 * 1 * msize (build o))%nat with (msize (build o)) by lia.
    split; [exact A|]. split; [rewrite B; lia|]. rewrite C, andb_true_r. apply Z.eqb_eq. lia.
  - destruct S as (NE & A & F). rewrite (fold_and _ (fun e => (0 < fst (fst e))%nat /\ solid (snd e))) in F.
    destruct (struct_solid l 0 A) as (I1 & I2).
    { intros e He. destruct (F e He) as (N & S). split; auto. now apply IH. }
    cbn [tmap build msize mext mcontig]. cbv zeta in *. rewrite I1, shift_0.
    split; [reflexivity|]. unfold struct_extent. rewrite I2 by reflexivity. split; [reflexivity|].
    apply Z.eqb_eq. lia.
Qed.

Lemma solid_moves : forall d, solid d -> forall po uo,
  map snd (moves (build d) po uo) = shift uo (tmap d).
Proof.
  induction d as [n|c o IH|c b s o IH|c b s o IH|l o IH|l o IH|l IH] using dt_ind'; intros S po uo; cbn [solid] in S; try contradiction.
  - cbn [build moves tmap]. apply run_snd.
  - destruct S as (-> & S). cbn [build moves tmap]. rewrite zseq_1, copies_1. cbn [flat_map].
    rewrite app_nil_r, IH by exact S. f_equal. lia.
  - destruct S as (-> & -> & -> & S). cbn [build moves tmap]. rewrite zseq_1, !copies_1. cbn [flat_map].
    rewrite app_nil_r, IH by exact S. f_equal. lia.
  - destruct S as (NE & A & F). rewrite (fold_and _ (fun e => (0 < fst (fst e))%nat /\ solid (snd e))) in F.
    cbn [build]. rewrite moves_ind. cbn [tmap]. clear NE IH.
    replace uo with (uo + 0) at 1 by lia. revert A. generalize 0 as p. revert po.
    induction l as [|e t IHl]; intros po p A; [reflexivity|].
    cbn [adjacent] in A. destruct A as (E & A). destruct (F e (or_introl eq_refl)) as (N & S).
    destruct (solid_spec _ S) as (T & X & C).
    assert (D : hull (tmap (snd e)) = Z.of_nat (msize (build (snd e)))) by (rewrite T at 1; apply hull_zseq).
    unfold dext in A. rewrite D in A.
    cbn [map struct_blocks filter fst snd]. unfold struct_blocks. cbn [map filter fst snd].
    destruct (Nat.eqb_spec (fst (fst e)) 0); [lia|]. cbn [negb map fst snd ind_moves]. rewrite C, map_app, run_snd.
    cbn [flat_map]. rewrite shift_app. f_equal.
    + rewrite E, D, shift_shift. rewrite T at 1. rewrite copies_zseq. now rewrite Nat.mul_comm.
    + rewrite X. replace (uo + p + Z.of_nat (msize (build (snd e))) * Z.of_nat (fst (fst e)))
        with (uo + (p + Z.of_nat (fst (fst e)) * Z.of_nat (msize (build (snd e))))) by lia.
      apply IHl; auto. intros x Hx. apply F. now right.
Qed.

Lemma spread_moves : forall d, spread d -> forall po uo,
  map snd (moves (build d) po uo) = shift uo (tmap d).
Proof.
  assert (G : forall c s o po uo,
    (forall po uo, map snd (moves (build o) po uo) = shift uo (tmap o)) ->
    map snd (flat_map (fun j => moves (build o) (po + j * Z.of_nat (msize (build o))) (uo + s * j)) (zseq c))
    = shift uo (copies c s (tmap o))).
  { intros c s o po uo H. rewrite map_flat_map. unfold copies. rewrite shift_flat_map.
    apply flat_map_ext'. intros x _. rewrite H, shift_shift. f_equal. lia. }
  induction d as [n|c o IH|c b s o IH|c b s o IH|l o IH|l o IH|l IH] using dt_ind'; intros S po uo; cbn [spread] in S; try contradiction.
  - destruct S as (-> & S). destruct (solid_spec _ S) as (T & X & C). cbn [build moves tmap]. rewrite copies_1.
    assert (D : hull (tmap o) = mext (build o)) by (rewrite T, X at 1; apply hull_zseq).
    rewrite D. apply G. now apply solid_moves.
  - destruct S as (-> & S). cbn [build moves tmap]. rewrite copies_1. apply G.
    destruct S as [S|(S & _)]; [now apply solid_moves|now apply IH].
Qed.

Lemma solid_bytes : forall d n, solid d -> map snd (bytes_moved (build d) n) = tmapn d n.
Proof.
  intros d n S. destruct (solid_spec d S) as (T & X & C). unfold bytes_moved. rewrite C, run_snd, shift_0.
  unfold tmapn, dext. rewrite T at 1 2. rewrite hull_zseq. now rewrite copies_zseq.
Qed.

Lemma spread_bytes : forall d, spread d -> map snd (bytes_moved (build d) 1) = tmap d.
Proof.
  intros d S. unfold bytes_moved. destruct (mcontig (build d)) eqn:C.
  - rewrite run_snd, shift_0, Nat.mul_1_l.
    destruct d as [n|c o|c b s o|c b s o|l o|l o|l]; cbn [spread] in S; try contradiction.
    + destruct S as (-> & S). destruct (solid_spec o S) as (T & X & _). cbn [build mcontig] in C.
      apply andb_true_iff in C. destruct C as (C & _). apply Z.eqb_eq in C.
      cbn [build tmap msize]. rewrite copies_1.
      assert (D : hull (tmap o) = mext (build o)) by (rewrite T, X at 1; apply hull_zseq).
      rewrite D, C, X. replace (Z.of_nat 1 * Z.of_nat (msize (build o))) with (Z.of_nat (msize (build o))) by lia.
      rewrite T. rewrite copies_zseq. f_equal. lia.
    + destruct S as (-> & [S|(S & K)]); cbn [build mcontig] in C; apply andb_true_iff in C; destruct C as (C & C').
      * destruct (solid_spec o S) as (T & X & _). apply Z.eqb_eq in C. cbn [build tmap msize]. rewrite copies_1.
        rewrite C, X. replace (Z.of_nat 1 * Z.of_nat (msize (build o))) with (Z.of_nat (msize (build o))) by lia.
        rewrite T. rewrite copies_zseq. f_equal. lia.
      * congruence.
  - unfold packn. rewrite zseq_1. cbn [flat_map]. rewrite app_nil_r, spread_moves by exact S.
    rewrite Z.mul_0_l. apply shift_0.
Qed.

Lemma solid_pos : forall d, solid d -> blocks_pos d.
Proof.
  induction d as [n|c o IH|c b s o IH|c b s o IH|l o IH|l o IH|l IH] using dt_ind'; intros S; cbn [solid blocks_pos] in *; try contradiction; auto.
  - apply IH, S.
  - destruct S as (_ & -> & _ & S). auto.
  - destruct S as (_ & _ & F). apply (fold_and _ (fun e => blocks_pos (snd e))).
    rewrite (fold_and _ (fun e => (0 < fst (fst e))%nat /\ solid (snd e))) in F.
    intros e He. apply IH; auto. now apply F.
Qed.

Lemma spread_pos : forall d, spread d -> blocks_pos d.
Proof.
  induction d as [n|c o IH|c b s o IH|c b s o IH|l o IH|l o IH|l IH] using dt_ind'; intros S; cbn [spread blocks_pos] in *; try contradiction.
  - destruct S as (-> & S). split; [lia|]. now apply solid_pos.
  - destruct S as (-> & [S|(S & _)]); (split; [lia|]); [now apply solid_pos|now apply IH].
Qed.
