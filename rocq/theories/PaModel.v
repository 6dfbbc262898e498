(** Parameter files: how sprockit::SimParameters reads them, prints them for
    the other ranks and merges two sets of parameters.

    What is modelled: sprockit/sprockit/sim_parameters.cc, functions
    parseStream, parseLine, split_line, getScopeAndKey, parseKeyval,
    doAddParam, getVariable, removeParam, parseFile, reproduceParams and
    combineInto.

    Simplifications.  A stream is the list of lines std::getline yields, so no
    line contains a newline.  A file name stands for the lines of the file
    (SpktFileIO::openFile and its search path are a function [files]).  The
    std::maps params_, subspaces_ and variables_ are association lists in the
    order of first insertion.  The [read] mark of a parameter, debug output
    and KeywordRegistration::validateNamespace (off unless asked for) are
    left out. *)
From Coq Require Import Ascii String List Arith Bool Lia.
Import ListNotations.
Local Open Scope char_scope.

Definition str := list ascii.

(** Text for examples. *)
Definition tx (s : string) : str := list_ascii_of_string s.

(** sprockit/sprockit/basic_string_tokenizer.h:52-53: the characters trim_str
    removes: blank, carriage return, newline; a tab is not among them. *)
Definition blank (c : ascii) : bool :=
  Ascii.eqb c " " || Ascii.eqb c "013" || Ascii.eqb c "010".

(** basic_string_tokenizer.h:59-63, find_first_not_of. *)
Fixpoint ltrim (s : str) : str :=
  match s with
  | c :: r => if blank c then ltrim r else s
  | [] => []
  end.

(** basic_string_tokenizer.h:52-64, trim_str. *)
Definition trim (s : str) : str := rev (ltrim (rev (ltrim s))).

(** Equality of std::strings. *)
Definition seq (a b : str) : bool := if list_eq_dec ascii_dec a b then true else false.

(** std::string::find of one character: what is before and after the first
    occurrence. *)
Fixpoint cut (c : ascii) (s : str) : option (str * str) :=
  match s with
  | [] => None
  | x :: r =>
      if Ascii.eqb x c then Some ([], r)
      else match cut c r with Some (a, b) => Some (x :: a, b) | None => None end
  end.

Fixpoint begins (w s : str) : bool :=
  match w, s with
  | [], _ => true
  | a :: w', b :: s' => Ascii.eqb a b && begins w' s'
  | _, [] => false
  end.

(** std::string::find of a word, compared with npos. *)
Fixpoint contains (w s : str) : bool :=
  begins w s || match s with [] => false | _ :: r => contains w r end.

Definition set_var : str := tx "set var ".
Definition include_w : str := tx "include".
Definition unset_w : str := tx "unset".

(** sim_parameters.cc:724-733, split_line.  Without an equals sign find gives
    npos and both substr calls give the whole line. *)
Definition split_line (l : str) : str * str :=
  match cut "=" l with
  | Some (a, b) => (trim a, trim b)
  | None => (trim l, trim l)
  end.

(** The values of one namespace: params_, variables_ and subspaces_
    (sprockit/sprockit/sim_parameters.h). *)
Inductive ns : Type :=
  Ns (ps : list (str * str)) (vs : list (str * str)) (subs : list (str * ns)).

Definition params (t : ns) := let (p, _, _) := t in p.
Definition vars (t : ns) := let (_, v, _) := t in v.
Definition subs (t : ns) := let (_, _, s) := t in s.
Definition empty : ns := Ns [] [] [].

(** std::map::find. *)
Fixpoint look {A} (k : str) (l : list (str * A)) : option A :=
  match l with
  | [] => None
  | (k', a) :: r => if seq k k' then Some a else look k r
  end.

(** map[k] = a. *)
Fixpoint upd {A} (k : str) (a : A) (l : list (str * A)) : list (str * A) :=
  match l with
  | [] => [(k, a)]
  | (k', b) :: r => if seq k k' then (k', a) :: r else (k', b) :: upd k a r
  end.

(** std::map::erase. *)
Fixpoint drop {A} (k : str) (l : list (str * A)) : list (str * A) :=
  match l with
  | [] => []
  | (k', b) :: r => if seq k k' then drop k r else (k', b) :: drop k r
  end.

(** How an operation ends: with a value, by spkt_abort_printf, by using the
    back of an empty list of scopes, or not within the given fuel. *)
Inductive res (A : Type) : Type :=
  | Ok (a : A)
  | Abort
  | Undef
  | More.
Arguments Ok {A}. Arguments Abort {A}. Arguments Undef {A}. Arguments More {A}.

(** A scope and its parents (SimParameters::parent_), as a zipper: the scope,
    then for every parent the name of the scope below and the parent. *)
Record zip := Z { foc : ns; ctx : list (str * ns) }.

Definition set_params (ps : list (str * str)) (t : ns) : ns := Ns ps (vars t) (subs t).
Definition set_vars (vs : list (str * str)) (t : ns) : ns := Ns (params t) vs (subs t).
Definition set_sub (n : str) (c t : ns) : ns := Ns (params t) (vars t) (upd n c (subs t)).

(** sim_parameters.cc:385-405 and 421-434, getOptionalLocalNamespace and
    getOptionalNamespace (both look only in this scope and build the namespace
    if it is missing). *)
Definition sub (n : str) (t : ns) : ns :=
  match look n (subs t) with Some c => c | None => empty end.

Definition opn (n : str) (z : zip) : zip := Z (sub n (foc z)) ((n, foc z) :: ctx z).

Definition cls (z : zip) : zip :=
  match ctx z with
  | (n, p) :: c => Z (set_sub n (foc z) p) c
  | [] => z
  end.

Fixpoint clsn (j : nat) (z : zip) : zip :=
  match j with O => z | S j' => clsn j' (cls z) end.

(** sim_parameters.cc:952-971, getVariable: this scope, then its parents. *)
Definition get_var (x : str) (z : zip) : option str :=
  (fix up (l : list ns) : option str :=
     match l with
     | [] => None
     | t :: r => match look x (vars t) with Some v => Some v | None => up r end
     end) (foc z :: map snd (ctx z)).

(** sim_parameters.cc:981-986, the recursion of doAddParam on values that
    start with a dollar sign. *)
Fixpoint resolve (fuel : nat) (v : str) (z : zip) : res str :=
  match v with
  | "$" :: x =>
      match get_var x z with
      | None => Abort
      | Some v' => match fuel with O => More | S f => resolve f v' z end
      end
  | _ => Ok v
  end.

(** sim_parameters.cc:973-1014, doAddParam. *)
Definition add_param (fuel : nat) (k v : str) (fail over : bool) (z : zip) : res zip :=
  match resolve fuel v z with
  | Ok v' =>
      match look k (params (foc z)) with
      | Some _ =>
          if fail then Abort
          else if over then Ok (Z (set_params (upd k v' (params (foc z))) (foc z)) (ctx z))
          else Ok z
      | None => Ok (Z (set_params (upd k v' (params (foc z))) (foc z)) (ctx z))
      end
  | Abort => Abort | Undef => Undef | More => More
  end.

(** sim_parameters.cc:664-677, getScopeAndKey: the namespaces before the dots
    and the final key.  [fuel] is the length of the key. *)
Fixpoint scope_of (fuel : nat) (k : str) : list str * str :=
  match fuel with
  | O => ([], k)
  | S f =>
      match cut "." k with
      | None => ([], k)
      | Some (n, r) => let (names, key) := scope_of f r in (n :: names, key)
      end
  end.

Definition scope_and_key (k : str) : list str * str := scope_of (length k) k.

Fixpoint opns (names : list str) (z : zip) : zip :=
  match names with [] => z | n :: r => opns r (opn n z) end.

(** Apply an operation in the scope a key names and come back. *)
Definition in_scope (names : list str) (f : zip -> res zip) (z : zip) : res zip :=
  match f (opns names z) with
  | Ok z' => Ok (clsn (length names) z')
  | Abort => Abort | Undef => Undef | More => More
  end.

(** sim_parameters.cc:679-691, parseKeyval. *)
Definition parse_keyval (fuel : nat) (k v : str) (fail over : bool) (z : zip) : res zip :=
  let (names, key) := scope_and_key k in
  in_scope names (add_param fuel key v fail over) z.

(** sim_parameters.cc:869-873, removeParam. *)
Definition remove_param (k : str) (z : zip) : res zip :=
  Ok (Z (set_params (drop k (params (foc z))) (foc z)) (ctx z)).

(** sim_parameters.cc:829-832: a variable is stored in the SimParameters that
    reads the stream, [up] levels above the active scope. *)
Fixpoint put_var (up : nat) (x v : str) (f : ns) (c : list (str * ns)) : ns * list (str * ns) :=
  match up, c with
  | S u, (n, p) :: c' => let (p', c'') := put_var u x v p c' in (f, (n, p') :: c'')
  | _, _ => (set_vars (upd x v (vars f)) f, c)
  end.

(** sim_parameters.cc:809-847: one line of the loop in parseStream.  [d] is
    the length of ns_queue less one; [inc] reads an included file into a
    scope.  Closing the last scope leaves ns_queue empty, and the next round
    takes the back of the empty list: [Undef] (also when nothing follows). *)
Definition line_step (inc : str -> zip -> res zip) (fuel : nat) (line : str)
  (d : nat) (z : zip) : res (nat * zip) :=
  let l := trim line in
  match l with
  | [] => Ok (d, z)
  | c :: _ =>
      if Ascii.eqb c "#" then Ok (d, z)
      else if Ascii.eqb c "}" then
        match d with O => Undef | S d' => Ok (d', cls z) end
      else if Ascii.eqb (last l "000") "{" then
        Ok (S d, opn (trim (removelast l)) z)
      else if contains set_var l then
        let (x, v) := split_line (skipn 8 l) in
        let (f, c) := put_var d x v (foc z) (ctx z) in
        Ok (d, Z f c)
      else if contains ["="] l then
        let (k, v) := split_line l in
        match parse_keyval fuel k v false true z with
        | Ok z' => Ok (d, z')
        | Abort => Abort | Undef => Undef | More => More
        end
      else if contains include_w l then
        match inc (trim (skipn 7 l)) z with
        | Ok z' => Ok (d, z')
        | Abort => Abort | Undef => Undef | More => More
        end
      else if contains unset_w l then
        let (names, key) := scope_and_key (trim (skipn 5 l)) in
        match in_scope names (remove_param key) z with
        | Ok z' => Ok (d, z')
        | Abort => Abort | Undef => Undef | More => More
        end
      else Abort
  end.

(** sim_parameters.cc:803-848, parseStream: all lines; at the end the scopes
    still open are left. *)
Fixpoint lines (inc : str -> zip -> res zip) (fuel : nat) (ls : list str)
  (d : nat) (z : zip) : res zip :=
  match ls with
  | [] => Ok (clsn d z)
  | l :: r =>
      match line_step inc fuel l d z with
      | Ok (d', z') => lines inc fuel r d' z'
      | Abort => Abort | Undef => Undef | More => More
      end
  end.

(** sim_parameters.cc:850-867 and 638-643, parseFile and tryToParse on top of
    parseStream; a file that is not found aborts.  [fuel] bounds the depth of
    includes and the length of a chain of variables. *)
Fixpoint parse (files : str -> option (list str)) (fuel : nat) (ls : list str) (z : zip)
  : res zip :=
  lines (match fuel with
         | O => fun _ _ => More
         | S f => fun name z =>
             match files (trim name) with
             | Some ls' => parse files f ls' z
             | None => Abort
             end
         end) fuel ls 0 z.

(** Reading a file into a SimParameters that has no parent. *)
Definition read (files : str -> option (list str)) (fuel : nat) (ls : list str) (t : ns) : res ns :=
  match parse files fuel ls (Z t []) with
  | Ok z => Ok (foc z)
  | Abort => Abort | Undef => Undef | More => More
  end.

(** sim_parameters.cc:408-419, reproduceParams. *)
Fixpoint reproduce (t : ns) : list str :=
  match t with
  | Ns ps _ ss =>
      map (fun kv : str * str => (fst kv ++ tx " = " ++ snd kv)%list) ps ++
      flat_map (fun nt : str * ns =>
        let (n, c) := nt in ((n ++ tx " {") :: reproduce c ++ [tx "}"])%list) ss
  end.

(** sim_parameters.cc:763-801, parallelBuildParams: rank 0 reads the file, the
    others read what rank 0 prints.  (serialize<SST::Params>,
    sim_parameters.h:657-670, sends parameters the same way.) *)
Definition rank_params (files : str -> option (list str)) (fuel : nat) (ls : list str) (me : nat)
  : res ns :=
  match read files fuel ls empty with
  | Ok t => match me with O => Ok t | S _ => read files fuel (reproduce t) empty end
  | Abort => Abort | Undef => Undef | More => More
  end.

(** sim_parameters.cc:1046-1066, combineInto: every parameter of [t] is put
    into [z], then every namespace of [t] is merged with the one of the same
    name. *)
Fixpoint add_all (fuel : nat) (ps : list (str * str)) (fail over : bool) (z : zip) : res zip :=
  match ps with
  | [] => Ok z
  | (k, v) :: r =>
      match parse_keyval fuel k v fail over z with
      | Ok z' => add_all fuel r fail over z'
      | Abort => Abort | Undef => Undef | More => More
      end
  end.

Fixpoint combine (fuel : nat) (t : ns) (fail over : bool) (z : zip) : res zip :=
  match t with
  | Ns ps _ ss =>
      match add_all fuel ps fail over z with
      | Ok z1 =>
          (fix each (l : list (str * ns)) (z : zip) : res zip :=
             match l with
             | [] => Ok z
             | (n, c) :: r =>
                 match combine fuel c fail over (opn n z) with
                 | Ok z' => each r (cls z')
                 | Abort => Abort | Undef => Undef | More => More
                 end
             end) ss z1
      | Abort => Abort | Undef => Undef | More => More
      end
  end.

(** sstmac/main/sstmac.cc:186-193: the file, then the parameters of the
    command line on top (combineInto with its defaults: do not fail,
    override). *)
Definition run_params (files : str -> option (list str)) (fuel : nat) (ls : list str) (cmd : ns)
  : res ns :=
  match read files fuel ls empty with
  | Ok t =>
      match combine fuel cmd false true (Z t []) with
      | Ok z => Ok (foc z)
      | Abort => Abort | Undef => Undef | More => More
      end
  | Abort => Abort | Undef => Undef | More => More
  end.

(** The value a component sees: getScopedParam (sim_parameters.cc:884-895) in
    the namespace with the given names, outermost first. *)
Fixpoint find (t : ns) (p : list str) (k : str) : option str :=
  match p with
  | [] => look k (params t)
  | n :: p' => match look n (subs t) with Some c => find c p' k | None => None end
  end.

(** sim_parameters.cc:829-832 and 952-956: the variables stored in the
    namespace with the given names. *)
Fixpoint fvar (t : ns) (p : list str) (x : str) : option str :=
  match p with
  | [] => look x (vars t)
  | n :: p' => match look n (subs t) with Some c => fvar c p' x | None => None end
  end.
