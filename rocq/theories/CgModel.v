(** Model of the automatic three-dimensional grid, sstmac/common/cartgrid.cc.

    Simplifications: int is nat (no overflow for inputs below 2^31); the
    33-element arrays are lists, with their length bounded by a theorem; areas are
    computed in nat where the code uses double (exact below 2^53); (int)sqrt((double)x)
    is the integer square root. *)
From Coq Require Import List Arith Bool.
Import ListNotations.

(** primefactor_i, cartgrid.cc:115-142. First loop: factors 2. [fuel] bounds the
    loop; x halves each time. *)
Fixpoint twos (fuel x : nat) : list nat * nat :=
  match fuel with
  | O => ([], x)
  | S f => if (1 <? x) && (x mod 2 =? 0)
           then let (l, y) := twos f (x / 2) in (2 :: l, y)
           else ([], x)
  end.

(** The inner while(1) of the second loop: divide by [d] while it divides. *)
Fixpoint divide_out (fuel d x : nat) : list nat * nat :=
  match fuel with
  | O => ([], x)
  | S f => if x mod d =? 0
           then let (l, y) := divide_out f d (x / d) in (d :: l, y)
           else ([], x)
  end.

(** The loop over odd [d] from 3 to [sq]; [steps] is the number of values left. *)
Fixpoint odds (steps d sq x : nat) : list nat * nat :=
  match steps with
  | O => ([], x)
  | S st => if d <=? sq
            then let (l1, y) := divide_out x d x in
                 let (l2, z) := odds st (d + 2) sq y in (l1 ++ l2, z)
            else ([], x)
  end.

Definition prime_factors (n : nat) : list nat :=
  let sq := Nat.sqrt n + 1 in
  let (l1, x1) := twos n n in
  let (l2, x2) := odds sq 3 sq x1 in
  let l := l1 ++ l2 in
  if (1 <? x2) || (match l with [] => true | _ => false end) then l ++ [x2] else l.

(** The grouping loop of genCartGrid, cartgrid.cc:174-181: consecutive equal factors
    and their number. *)
Fixpoint group (l : list nat) : list (nat * nat) :=
  match l with
  | [] => []
  | x :: r => match group r with
              | (y, c) :: g => if x =? y then (x, S c) :: g else (x, 1) :: (y, c) :: g
              | [] => [(x, 1)]
              end
  end.

(** Counter_next, cartgrid.cc:70-82: add one with carry. *)
Fixpoint cnext (maxs cur : list nat) : list nat :=
  match maxs, cur with
  | m :: ms, c :: cs => if m <? S c then 0 :: cnext ms cs else S c :: cs
  | _, _ => []
  end.

(** Counter_is_zero, cartgrid.cc:84-90. *)
Definition czero (cur : list nat) : bool := forallb (fun c => c =? 0) cur.

(** Counter_product, cartgrid.cc:92-103. For a nonzero counter it is the product
    of the powers; for a zero counter it is 0 ([k] stays 0), which is never used. *)
Fixpoint cpow (mult cur : list nat) : nat :=
  match mult, cur with
  | m :: ms, c :: cs => m ^ c * cpow ms cs
  | _, _ => 1
  end.

Definition cproduct (mult cur : list nat) : nat := if czero cur then 0 else cpow mult cur.

(** Counter_max_cur_sub, cartgrid.cc:105-113. *)
Fixpoint csub (maxs cur : list nat) : list nat :=
  match maxs, cur with
  | m :: ms, c :: cs => (m - c) :: csub ms cs
  | _, _ => []
  end.

(** The values a loop "for (next(c); !zero(c); next(c))" goes through. [fuel] is
    the number of counter states. *)
Fixpoint visits (fuel : nat) (maxs cur : list nat) : list (list nat) :=
  match fuel with
  | O => []
  | S f => let c := cnext maxs cur in
           if czero c then [] else c :: visits f maxs c
  end.

Definition states (maxs : list nat) : nat := fold_right (fun m a => S m * a) 1 maxs.

Definition zeros (maxs : list nat) : list nat := map (fun _ => 0) maxs.

Definition all_visits (maxs : list nat) : list (list nat) := visits (states maxs) maxs (zeros maxs).

Definition area (t : nat * nat * nat) : nat :=
  let '(a, b, c) := t in a * b + b * c + a * c.

(** The body of the two nested loops, cartgrid.cc:192-203. [None] is the
    uninitialised (x,y,z) with area 2n+1. *)
Definition best (n : nat) (acc : option (nat * nat * nat)) (t : nat * nat * nat)
  : option (nat * nat * nat) :=
  let cur := match acc with None => 2 * n + 1 | Some u => area u end in
  if area t <? cur then Some t else acc.

Definition candidates (n : nat) (fs counts : list nat) : list (nat * nat * nat) :=
  flat_map (fun c1 =>
    map (fun c2 =>
      let tf1 := cproduct fs c1 in
      let tf2 := cproduct fs c2 in
      (tf1, tf2, n / tf1 / tf2)) (all_visits (csub counts c1))) (all_visits counts).

(** genCartGrid, cartgrid.cc:144-205. *)
Definition gen_cart_grid (n : nat) : option (nat * nat * nat) :=
  match prime_factors n with
  | [] => None
  | [_] => Some (n, 1, 1)
  | [a; b] => Some (a, b, 1)
  | [a; b; c] => Some (a, b, c)
  | fs =>
      if n =? 1 then Some (n, 1, 1) else
      let g := group fs in
      fold_left (best n) (candidates n (map fst g) (map snd g)) None
  end.

(** CartAllocation::allocate, the automatic branch, cart_allocation.cc:143-155: the
    coordinates inserted, in order. The inner loops write coords[y] and coords[z],
    not coords[1] and coords[2]. A write past the third element is undefined in the
    code and ignored here. *)
Fixpoint put (l : list nat) (i v : nat) : list nat :=
  match l, i with
  | [], _ => []
  | _ :: r, O => v :: r
  | x :: r, S i' => x :: put r i' v
  end.

Fixpoint auto_z (zs : list nat) (coords : list nat) : list (list nat) * list nat :=
  match zs with
  | [] => ([], coords)
  | z :: r => let c := put coords z z in
              let (out, c') := auto_z r c in (c :: out, c')
  end.

Fixpoint auto_y (nz : nat) (ys : list nat) (coords : list nat) : list (list nat) * list nat :=
  match ys with
  | [] => ([], coords)
  | y :: r => let (o1, c1) := auto_z (seq 0 nz) (put coords y y) in
              let (o2, c2) := auto_y nz r c1 in (o1 ++ o2, c2)
  end.

Fixpoint auto_x (ny nz : nat) (xs : list nat) (coords : list nat) : list (list nat) * list nat :=
  match xs with
  | [] => ([], coords)
  | x :: r => let (o1, c1) := auto_y nz (seq 0 ny) (put coords 0 x) in
              let (o2, c2) := auto_x ny nz r c1 in (o1 ++ o2, c2)
  end.

Definition auto_coords (n : nat) : option (list (list nat)) :=
  match gen_cart_grid n with
  | None => None
  | Some (nx, ny, nz) => Some (fst (auto_x ny nz (seq 0 nx) [0; 0; 0]))
  end.
