(** What MPI says about derived datatypes: the byte displacements a type selects, in
    order (its type map, by bytes), and its extent. *)
From Coq Require Import List ZArith Bool.
From Verif Require Import DtModel.
Import ListNotations.
Local Open Scope Z_scope.

Definition shift (x : Z) (l : list Z) : list Z := map (Z.add x) l.

Definition hull (l : list Z) : Z :=
  match l with
  | [] => 0
  | x :: t => fold_right Z.max x t - fold_right Z.min x t + 1
  end.

(** [n] copies at distance [e]. *)
Definition copies (n : nat) (e : Z) (l : list Z) : list Z :=
  flat_map (fun i => shift (i * e) l) (zseq n).

Fixpoint tmap (d : dt) : list Z :=
  match d with
  | DPrim n => zseq n
  | DContig c o => copies c (hull (tmap o)) (tmap o)
  | DVec c b s o => copies c (s * hull (tmap o)) (copies b (hull (tmap o)) (tmap o))
  | DHvec c b s o => copies c s (copies b (hull (tmap o)) (tmap o))
  | DIndexed l o =>
    flat_map (fun e => shift (snd e * hull (tmap o)) (copies (fst e) (hull (tmap o)) (tmap o))) l
  | DHindexed l o => flat_map (fun e => shift (snd e) (copies (fst e) (hull (tmap o)) (tmap o))) l
  | DStruct l =>
    flat_map (fun e => shift (snd (fst e)) (copies (fst (fst e)) (hull (tmap (snd e))) (tmap (snd e)))) l
  end.

(** Extent of a type and the bytes of [n] elements. *)
Definition dext (d : dt) : Z := hull (tmap d).
Definition tmapn (d : dt) (n : nat) : list Z := copies n (dext d) (tmap d).
