(** Random number generators: sstmac/common/rng.h and rng.cc (MWC, SHR3, CONG,
    SimpleCombo, SWB, LFIB4, Combo).

    Words are numbers below 2^32 and arithmetic is modulo 2^32, as rngint_t is
    uint32_t (rng.h:92).  Not modelled: realvalue and the distributions, which
    use floating point. *)
From Coq Require Import NArith List.
Import ListNotations.
Local Open Scope N_scope.

Definition wide : N := 4294967296.
Definition word (x : N) : N := x mod wide.

(** UniformInteger::value_in_range, rng.h:103-105. *)
Definition in_range (v range : N) : N := v mod range.

(** MWC::znew, wnew and value, rng.h:164-170 and 186-188. *)
Definition mwc := (N * N)%type.
Definition mwc_next (s : mwc) : mwc :=
  (word (36969 * (N.land (fst s) 65535) + N.shiftr (fst s) 16),
   word (18000 * (N.land (snd s) 65535) + N.shiftr (snd s) 16)).
Definition mwc_out (s : mwc) : N :=
  word (word (N.shiftl (fst s) 16) + N.land (snd s) 65535).

(** MWC::vec_reseed, rng.cc:156-169. *)
Definition mwc_seed (l : list N) (s : mwc) : mwc :=
  (match l with z :: _ => z | [] => 362436069 end,
   match l with _ :: w :: _ => w | _ => 521288629 end).

(** SHR3::value, rng.cc:536-544, and vec_reseed, rng.cc:212-220. *)
Definition left_mix (k x : N) : N := N.lxor x (word (N.shiftl x k)).
Definition right_mix (k x : N) : N := N.lxor x (N.shiftr x k).
Definition shr3 (x : N) : N := left_mix 5 (right_mix 13 (left_mix 17 x)).
Definition shr3_seed (l : list N) (s : N) : N := match l with x :: _ => x | [] => 123456789 end.

(** CONG::value, rng.h:307-309, and vec_reseed, rng.cc:263-271. *)
Definition cong (x : N) : N := word (69069 * x + 1234567).
Definition cong_seed (l : list N) (s : N) : N := match l with x :: _ => x | [] => 380116160 end.

(** SimpleCombo::value, rng.h:358-360, and vec_reseed, rng.cc:345-364. *)
Record simple := Simple { s_mwc : mwc; s_cong : N; s_shr3 : N }.
Definition simple_next (s : simple) : simple :=
  Simple (mwc_next (s_mwc s)) (cong (s_cong s)) (shr3 (s_shr3 s)).
Definition simple_out (s : simple) : N :=
  word (N.lxor (mwc_out (s_mwc s)) (s_cong s) + s_shr3 s).
Definition simple_seed (l : list N) (s : simple) : simple :=
  Simple (mwc_seed (firstn 2 l) (s_mwc s)) (cong_seed (firstn 1 (skipn 3 l)) (s_cong s))
         (shr3_seed (firstn 1 (skipn 2 l)) (s_shr3 s)).

(** Table256, rng.cc:375-394: c is an unsigned char. *)
Definition byte (x : N) : N := x mod 256.
Definition tput (t : N -> N) (i v : N) : N -> N := fun j => if j =? i then v else t j.
Fixpoint fill (k : nat) (i : N) (s : simple) (t : N -> N) : simple * (N -> N) :=
  match k with
  | O => (s, t)
  | S k' => let s' := simple_next s in fill k' (i + 1) s' (tput t i (simple_out s'))
  end.

(** SWB, rng.h:460-462; value, rng.cc:546-562; vec_reseed, rng.cc:467-473. *)
Record swb := Swb { b_c : N; b_t : N -> N; b_x : N; b_y : N; b_seeder : simple }.
Definition swb_next (s : swb) : swb * N :=
  let c := b_c s in
  let i1 := byte (c + 237) in
  let i2 := byte (c + 15) in
  let i3 := byte (c + 1) in
  let x := b_t s i2 in
  let shifter := if x <? b_y s then 1 else 0 in
  let y := b_t s i3 in
  let v := word (x + 2 * wide - (y + shifter)) in
  (Swb (byte (c + 1)) (tput (b_t s) i1 v) x y (b_seeder s), v).
Definition swb_seed (l : list N) (s : swb) : swb :=
  let '(g, t) := fill 256 0 (simple_seed l (b_seeder s)) (b_t s) in Swb 0 t 0 0 g.

(** LFIB4::value, rng.h:423-430. *)
Record lfib := Lfib { f_c : N; f_t : N -> N; f_seeder : simple }.
Definition lfib_next (s : lfib) : lfib * N :=
  let c := f_c s in
  let i1 := byte c in
  let i2 := byte (c + 58) in
  let i3 := byte (c + 119) in
  let i4 := byte (c + 1 + 178) in
  let v := word (f_t s i1 + f_t s i2 + f_t s i3 + f_t s i4) in
  (Lfib (byte (c + 1)) (tput (f_t s) i1 v) (f_seeder s), v).
Definition lfib_seed (l : list N) (s : lfib) : lfib :=
  let '(g, t) := fill 256 0 (simple_seed l (f_seeder s)) (f_t s) in Lfib 0 t g.

(** Combo, rng.h:495-500; vec_reseed, rng.cc:512-534.  Four seeds go to each
    part. *)
Record combo := Combo { k_swb : swb; k_simple : simple }.
Definition combo_next (s : combo) : combo * N :=
  let g := simple_next (k_simple s) in
  let '(b, v) := swb_next (k_swb s) in
  (Combo b g, word (simple_out g + v)).
Definition combo_seed (l : list N) (s : combo) : combo :=
  Combo (swb_seed (firstn 4 l) (k_swb s))
        (Nat.iter 256 simple_next (simple_seed (firstn 4 (skipn 4 l)) (k_simple s))).

(** The first values of a generator. *)
Fixpoint values {S} (next : S -> S * N) (k : nat) (s : S) : list N :=
  match k with O => [] | Datatypes.S k' => let '(s', v) := next s in v :: values next k' s' end.
Definition plain {S} (next : S -> S) (out : S -> N) (s : S) : S * N := (next s, out (next s)).
