(** Dense numbering of the live ranks: sumi/dense_rank_map.{h,cc}.
    SIMPLIFIED: int ranks are unbounded integers. *)
From Coq Require Import List ZArith Bool.
Import ListNotations.
Local Open Scope Z_scope.

(* std::sort, dense_rank_map.cc:95 *)
Fixpoint zins (x : Z) (l : list Z) : list Z :=
  match l with
  | [] => [x]
  | y :: t => if x <=? y then x :: l else y :: zins x t
  end.
Definition zsort (l : list Z) : list Z := fold_right zins [] l.

(* DenseRankMap::init, dense_rank_map.cc:73-97. [failed] lists the std::set in its
   iteration order, that is strictly ascending; [dom] is dom->globalToCommRank. *)
Definition dm_init (failed : list Z) (dom : option (Z -> Z)) : list Z :=
  match dom with
  | Some f => zsort (map f failed)
  | None => failed
  end.

(* linearFindRank, dense_rank_map.cc:99-108: the loop from index [i] on *)
Fixpoint linear_from (i : Z) (l : list Z) (r : Z) : Z :=
  match l with
  | [] => r - i
  | x :: t => if r <? x then r - i else linear_from (i + 1) t r
  end.
Definition linear_find (l : list Z) (r : Z) : Z := linear_from 0 l r.

(* sparseRank, dense_rank_map.cc:110-122 *)
Fixpoint sparse_rank (l : list Z) (rank : Z) : Z :=
  match l with
  | [] => rank
  | x :: t => if x <=? rank then sparse_rank t (rank + 1) else rank
  end.

(* treeFindRank, dense_rank_map.cc:137-173. The pointer failed_array is [base], an
   index into [arr]. None is the throw of lines 153 and 168. The recursion halves
   num_failed; [fuel] is never used up (see tree_find_spec in DmProp). *)
Fixpoint tree_find (fuel : nat) (arr : list Z) (r offset : Z) (num base : nat) : option Z :=
  match fuel with
  | O => None
  | S f =>
    let at_ i := nth (base + i)%nat arr 0 in
    if Nat.eqb num 1 then
      if at_ 0%nat <? r then Some (r - (offset + 1))
      else if r <? at_ 0%nat then Some (r - offset)
      else None
    else
      let mid := Nat.div num 2 in
      if r <? at_ mid then tree_find f arr r offset mid base
      else if at_ mid <? r then
        tree_find f arr r (offset + Z.of_nat mid) (num - mid)%nat (base + mid)%nat
      else None
  end.

(* dense_rank_map.h:79 *)
Definition tree_cutoff : nat := 4.

(* denseRank, dense_rank_map.cc:124-135 *)
Definition dense_rank (l : list Z) (r : Z) : option Z :=
  if Nat.eqb (length l) 0 then Some r
  else if Nat.leb (length l) tree_cutoff then Some (linear_find l r)
  else tree_find (length l) l r 0 (length l) 0.
