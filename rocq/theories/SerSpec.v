(** When a value can be transferred into a given target. *)
From Coq Require Import List Arith NArith.
From Verif Require Import SerModel.
Import ListNotations.

(** In increasing order of a comparison, each element once. *)
Definition increasing {A} (ltb : A -> A -> bool) (l : list A) : Prop :=
  forall l1 x l2 y l3, l = l1 ++ x :: l2 ++ y :: l3 -> ltb x y = true /\ ltb y x = false.

Section Holds.
Variable reg : registry.
Variable ltb : val -> val -> bool.

(** [holds t o v]: [v] is a value of type [t] and [o] is a target as the program has it
    before reading: containers empty (or a map with the same keys), a pointer that is to become null already null.
    Lengths fit the 32-bit loops; a raw buffer is non-null exactly when its size is not
    zero; sets and maps are in key order. *)
Inductive holds : ty -> val -> val -> Prop :=
| h_prim n o bs : length bs = n -> holds (TPrim n) o (VPrim bs)
| h_bool o b : holds TBool o (VBool b)
| h_str o bs : (N.of_nat (length bs) < 2 ^ 31)%N -> holds TStr o (VStr bs)
| h_arr n o bs : length bs = n -> holds (TArr n) o (VPrim bs)
| h_bin_null i e o : holds (TBin i e) o (VBuf None 0)
| h_bin i e o bs n : (n <> 0)%N -> (n < 256 ^ N.of_nat i)%N -> length bs = N.to_nat n * e ->
    holds (TBin i e) o (VBuf (Some bs) n)
| h_void_null i o : holds (TVoid i) o (VBuf None 0)
| h_void i o bs n : (n <> 0)%N -> (n < 256 ^ N.of_nat i)%N -> length bs = N.to_nat n ->
    holds (TVoid i) o (VBuf (Some bs) n)
| h_vec t l : (N.of_nat (length l) < 2 ^ 31)%N -> all t (zero t) l -> holds (TVec t) (VSeq []) (VSeq l)
| h_list t l : (N.of_nat (length l) < 2 ^ 31)%N -> all t (dflt t) l -> holds (TList t) (VSeq []) (VSeq l)
| h_set t l : (N.of_nat (length l) < 2 ^ 31)%N -> all t (dflt t) l -> increasing ltb l ->
    holds (TSet t) (VSeq []) (VSeq l)
| h_map tk tv l : (N.of_nat (length l) < 2 ^ 31)%N -> all_pairs tk tv l ->
    increasing (fun a b => ltb (fst a) (fst b)) l -> holds (TMap tk tv) (VMap []) (VMap l)
| h_map_over tk tv l0 l : (N.of_nat (length l) < 2 ^ 31)%N -> all_pairs tk tv l ->
    increasing (fun a b => ltb (fst a) (fst b)) l -> map fst l0 = map fst l ->
    (forall k, ltb k k = false) -> holds (TMap tk tv) (VMap l0) (VMap l)
| h_null : holds TPtr VNull VNull
| h_obj o c ms fs : reg c = Some ms -> (c < null_id)%N -> members (map fst ms) (map snd ms) fs ->
    holds TPtr o (VObj c fs)
| h_struct ts os fs : members ts os fs -> holds (TStruct ts) (VSeq os) (VSeq fs)
| h_wire_null m n : (n < 2 ^ 64)%N -> holds TWire (VBuf None m) (VBuf None n)
| h_wire o bs n : (n <> 0)%N -> (n < 2 ^ 64)%N -> length bs = N.to_nat n ->
    holds TWire o (VBuf (Some bs) n)
with all : ty -> val -> list val -> Prop :=
| a_nil t o : all t o []
| a_cons t o x l : holds t o x -> all t o l -> all t o (x :: l)
with all_pairs : ty -> ty -> list (val * val) -> Prop :=
| p_nil tk tv : all_pairs tk tv []
| p_cons tk tv k x l : holds tk (dflt tk) k -> holds tv (dflt tv) x -> all_pairs tk tv l ->
    all_pairs tk tv ((k, x) :: l)
with members : list ty -> list val -> list val -> Prop :=
| m_nil : members [] [] []
| m_cons t o x ts os l : holds t o x -> members ts os l -> members (t :: ts) (o :: os) (x :: l).

End Holds.
