(** What a parameter file means, and which parameters survive being printed
    and read again. *)
From Coq Require Import Ascii String List Arith Bool Lia.
From Verif Require Import PaModel.
Import ListNotations.
Local Open Scope char_scope.

(** The meaning of a file is given without trees: a table from the names of
    the enclosing namespaces (innermost first) and a key to a value, and the
    same for variables. *)
Definition place := list str.
Definition table := place -> str -> option str.

Definition same_place (p q : place) : bool :=
  if list_eq_dec (list_eq_dec ascii_dec) p q then true else false.

Definition write (m : table) (p : place) (k : str) (v : option str) : table :=
  fun p' k' => if same_place p' p && seq k' k then v else m p' k'.

Record meaning := M { val : table; var : table }.

Definition nothing : meaning := M (fun _ _ => None) (fun _ _ => None).

(** A variable is looked up in the enclosing namespaces, inside out. *)
Fixpoint scoped (m : table) (p : place) (x : str) : option str :=
  match m p x with
  | Some v => Some v
  | None => match p with [] => None | _ :: p' => scoped m p' x end
  end.

Fixpoint value (fuel : nat) (v : str) (p : place) (m : meaning) : res str :=
  match v with
  | "$" :: x =>
      match scoped (var m) p x with
      | None => Abort
      | Some v' => match fuel with O => More | S f => value f v' p m end
      end
  | _ => Ok v
  end.

(** One line.  [p] is the namespace the line is in, [d] how many namespaces
    this file has open. *)
Definition mean_line (inc : str -> place -> meaning -> res meaning) (fuel : nat) (line : str)
  (d : nat) (p : place) (m : meaning) : res (nat * place * meaning) :=
  let l := trim line in
  match l with
  | [] => Ok (d, p, m)
  | c :: _ =>
      if Ascii.eqb c "#" then Ok (d, p, m)
      else if Ascii.eqb c "}" then
        match d with O => Undef | S d' => Ok (d', tl p, m) end
      else if Ascii.eqb (last l "000") "{" then
        Ok (S d, trim (removelast l) :: p, m)
      else if contains set_var l then
        let (x, v) := split_line (skipn 8 l) in
        Ok (d, p, M (val m) (write (var m) (skipn d p) x (Some v)))
      else if contains ["="] l then
        let (k, v) := split_line l in
        let (names, key) := scope_and_key k in
        match value fuel v (rev names ++ p) m with
        | Ok v' => Ok (d, p, M (write (val m) (rev names ++ p) key (Some v')) (var m))
        | Abort => Abort | Undef => Undef | More => More
        end
      else if contains include_w l then
        match inc (trim (skipn 7 l)) p m with
        | Ok m' => Ok (d, p, m')
        | Abort => Abort | Undef => Undef | More => More
        end
      else if contains unset_w l then
        let (names, key) := scope_and_key (trim (skipn 5 l)) in
        Ok (d, p, M (write (val m) (rev names ++ p) key None) (var m))
      else Abort
  end.

Fixpoint mean_lines (inc : str -> place -> meaning -> res meaning) (fuel : nat) (ls : list str)
  (d : nat) (p : place) (m : meaning) : res meaning :=
  match ls with
  | [] => Ok m
  | l :: r =>
      match mean_line inc fuel l d p m with
      | Ok (d', p', m') => mean_lines inc fuel r d' p' m'
      | Abort => Abort | Undef => Undef | More => More
      end
  end.

Fixpoint means (files : str -> option (list str)) (fuel : nat) (ls : list str)
  (p : place) (m : meaning) : res meaning :=
  mean_lines (match fuel with
              | O => fun _ _ _ => More
              | S f => fun name p m =>
                  match files (trim name) with
                  | Some ls' => means files f ls' p m
                  | None => Abort
                  end
              end) fuel ls 0 p m.

(** A set of parameters without the variables: what components can see. *)
Fixpoint strip (t : ns) : ns :=
  match t with
  | Ns ps _ ss => Ns ps [] (map (fun nt : str * ns => let (n, c) := nt in (n, strip c)) ss)
  end.

Definition head_ok (s : str) : Prop :=
  match s with c :: _ => c <> "#" /\ c <> "}" | [] => True end.

(** The names in [t] are not mistaken for something else when they start a
    line: no blanks around them, no leading hash or closing brace; and no
    "set var " in the line of a parameter. *)
Inductive tidy : ns -> Prop :=
  tidy_ns ps vs ss :
    (forall k v, In (k, v) ps ->
       trim k = k /\ head_ok k /\ contains set_var (k ++ tx " = " ++ v) = false) ->
    (forall n c, In (n, c) ss -> trim n = n /\ head_ok n /\ tidy c) ->
    tidy (Ns ps vs ss).

(** A value as the parser leaves it: no blanks around it, no opening brace at
    the end, no dollar sign at the start. *)
Definition plain_value (v : str) : Prop :=
  trim v = v /\ last v "000" <> "{" /\ hd "000" v <> "$".

Inductive plain : ns -> Prop :=
  plain_ns ps vs ss :
    NoDup (map fst ps) ->
    (forall k v, In (k, v) ps -> ~ In "=" k /\ ~ In "." k /\ plain_value v) ->
    (forall x v, In (x, v) vs -> trim v = v /\ last v "000" <> "{") ->
    NoDup (map fst ss) ->
    (forall n c, In (n, c) ss -> plain c) ->
    plain (Ns ps vs ss).

(** Parameters that can be merged as they are: one value per key, no dot in a
    key, no value that starts with a dollar sign, one namespace per name. *)
Inductive stored : ns -> Prop :=
  stored_ns ps vs ss :
    NoDup (map fst ps) ->
    (forall k v, In (k, v) ps -> ~ In "." k /\ hd "000" v <> "$") ->
    NoDup (map fst ss) ->
    (forall n c, In (n, c) ss -> stored c) ->
    stored (Ns ps vs ss).

(** [a] before [b]. *)
Definition first_of (a b : option str) : option str :=
  match a with Some _ => a | None => b end.

(** Names that can be written in front of a dot. *)
Definition name_ok (n : str) : Prop :=
  trim n = n /\ head_ok n /\ ~ In "." n /\ ~ In "=" n.

(** A dotted key. *)
Fixpoint dotted (names : list str) (k : str) : str :=
  match names with [] => k | n :: r => n ++ "." :: dotted r k end.

Definition assignment (k v : str) : str := k ++ tx " = " ++ v.

(** The same assignment in nested blocks. *)
Fixpoint block (names : list str) (l : list str) : list str :=
  match names with [] => l | n :: r => (n ++ tx " {") :: block r l ++ [tx "}"] end.

(** How many namespaces are open after some lines, if none is closed twice. *)
Fixpoint open_after (ls : list str) (d : nat) : option nat :=
  match ls with
  | [] => Some d
  | line :: r =>
      match trim line with
      | [] => open_after r d
      | c :: l =>
          if Ascii.eqb c "#" then open_after r d
          else if Ascii.eqb c "}" then match d with O => None | S d' => open_after r d' end
          else if Ascii.eqb (last (c :: l) "000") "{" then open_after r (S d)
          else open_after r d
      end
  end.
