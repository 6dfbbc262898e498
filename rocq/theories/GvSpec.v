(** What a program expects of its global variables: every process has its own copy of every variable, as if it
    ran alone. *)
From Coq Require Import List Arith Bool.
From Verif Require Import GvModel.
Import ListNotations.

(** Variables are numbered in the order of their declaration. *)
Record own := mkown {
  sizes : list nat;
  given : nat -> option mem;            (* the initial value of a variable, while its library is loaded *)
  preset : nat -> nat -> option nat;    (* bytes set for all processes *)
  alive : list nat;
  value : nat -> nat -> nat -> option nat }.   (* of a process, of a variable, a byte *)
Definition own0 : own := mkown [] (fun _ => None) (fun _ _ => None) [] (fun _ _ _ => None).

Definition upd {A} (f : nat -> A) (x : nat) (v : A) : nat -> A := fun y => if y =? x then v else f y.
(** [v] over what was there. *)
Definition over (v : mem) (f : nat -> option nat) : nat -> option nat :=
  fun i => if i <? length v then nth i v None else f i.

Definition ostep (o : op) (s : own) : own :=
  match o with
  | Declare n v => let x := length (sizes s) in
      mkown (sizes s ++ [n]) (upd (given s) x v) (upd (preset s) x (fun _ => None)) (alive s)
            (fun p => upd (value s p) x (fun _ => None))
  | Undeclare x => mkown (sizes s) (upd (given s) x None) (preset s) (alive s) (value s)
  | Start p _ => mkown (sizes s) (given s) (preset s) (p :: alive s)
      (upd (value s) p (fun x => match given s x with Some v => over v (preset s x) | None => preset s x end))
  | Store p x i w => mkown (sizes s) (given s) (preset s) (alive s)
      (upd (value s) p (upd (value s p) x (upd (value s p x) i (Some w))))
  | InitSpace x v => mkown (sizes s) (given s) (upd (preset s) x (over v (preset s x))) (alive s)
      (fun p => if existsb (Nat.eqb p) (alive s) then upd (value s p) x (over v (value s p x)) else value s p)
  | Finish p | Vanish p => mkown (sizes s) (given s) (preset s) (filter (fun q => negb (q =? p)) (alive s)) (value s)
  end.
(** What a program may do: variables exist, values fit, a process is started once and acts while it lives. *)
Definition may (o : op) (s : own) : Prop :=
  match o with
  | Declare n v => 0 < n /\ forall w, v = Some w -> length w <= n
  | Undeclare x => x < length (sizes s)
  | Start p _ => ~ In p (alive s)
  | Store p x i _ => In p (alive s) /\ x < length (sizes s) /\ i < nth x (sizes s) 0
  | InitSpace x v => x < length (sizes s) /\ length v <= nth x (sizes s) 0
  | Finish p | Vanish p => In p (alive s)
  end.
Fixpoint fair (l : list op) (s : own) : Prop :=
  match l with [] => True | o :: t => may o s /\ fair t (ostep o s) end.
Definition orun (l : list op) (s : own) : own := fold_left (fun s o => ostep o s) l s.
(** Neither globals_size nor a thread that ends without being deregistered. *)
Definition plain (o : op) : Prop := match o with Start _ (Some _) | Vanish _ => False | _ => True end.
