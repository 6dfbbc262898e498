(** Model of sprockit's serializer: sizer, packer, unpacker and the container
    serializers (sprockit/sprockit/serialize*.h, serializer.h, serializer.cc), and of
    the serialize_order of network messages.
    Memory: a buffer is a list of bytes. Trivially copyable data is its byte image.
    std::unordered_set/unordered_map and shared_ptr are not modelled. *)
From Coq Require Import List Arith NArith Bool.
Import ListNotations.

Definition byte := N.

(** The little-endian image of an unsigned number in [k] bytes, as left in the buffer
    by "*buf = t" in ser_packer::pack, serialize_packer.h:58-62, and its inverse in
    ser_unpacker::unpack, serialize_unpacker.h:57-61. *)
Fixpoint enc (k : nat) (n : N) : list byte :=
  match k with
  | O => []
  | S k' => (n mod 256)%N :: enc k' (n / 256)%N
  end.

Fixpoint dec (l : list byte) : N :=
  match l with
  | [] => 0%N
  | b :: r => (b + 256 * dec r)%N
  end.

(** sizeof of the types the serializers use themselves: size_t and long (8), int (4). *)
Definition sz_size_t : nat := 8.
Definition sz_long : nat := 8.
Definition sz_int : nat := 4.

(** static const long null_ptr_id = -1, serialize_serializable.cc:51, as its image. *)
Definition null_id : N := (2 ^ 64 - 1)%N.

(** The serialized types.
    TPrim n: any T handled by serializer::primitive, sizeof(T)=n (serialize.h:57-63).
    TBool: serialize<bool>, serialize.h:65-73 (sent as an int).
    TStr: std::string. TArr n: T[N] of n bytes in all, serializer.h:137-156.
    TBin i e: sstmac::array(T*,Int), sizeof(Int)=i, sizeof(T)=e, serializer.h:158-183.
    TVoid i: sstmac::array(void*,Int), serializer.h:185-210.
    TVec, TList (list and deque), TSet, TMap: the containers.
    TPtr: serializable*. TStruct: a class serializing its members in order.
    TWire: NetworkMessage's wire buffer, network_message.cc:289-296: a null flag, then
    either the buffer or only payload_bytes_. *)
Inductive ty :=
| TPrim (n : nat) | TBool | TStr | TArr (n : nat) | TBin (i e : nat) | TVoid (i : nat)
| TVec (t : ty) | TList (t : ty) | TSet (t : ty) | TMap (k v : ty)
| TPtr | TStruct (ts : list ty) | TWire.

(** Values. VBuf p n: a pointer (None = null, else the bytes it points to) and the
    separate size member. VUndef: an uninitialised variable. *)
Inductive val :=
| VPrim (bs : list byte) | VBool (b : bool) | VStr (bs : list byte) | VBuf (p : option (list byte)) (n : N)
| VSeq (l : list val) | VMap (l : list (val * val)) | VNull | VObj (cls : N) (fs : list val) | VUndef.

(** A class: the members in serialize_order, with the value each has after default
    construction by the factory. *)
Definition registry := N -> option (list (ty * val)).

(** Loops over the elements of a container or the members of a class, for each pass. *)
Definition bind {A B} (x : option A) (f : A -> option B) : option B :=
  match x with Some a => f a | None => None end.

Definition add (a : nat) (x : option nat) : option nat := bind x (fun b => Some (a + b)).

Definition sum1 (f : val -> option nat) : list val -> option nat :=
  fix go l := match l with
              | [] => Some 0
              | x :: r => bind (f x) (fun a => add a (go r))
              end.

Definition sum_pairs (f g : val -> option nat) : list (val * val) -> option nat :=
  fix go l := match l with
              | [] => Some 0
              | (k, x) :: r => bind (f k) (fun a => bind (g x) (fun b => add (a + b) (go r)))
              end.

Definition sum_fields (f : ty -> val -> option nat) : list ty -> list val -> option nat :=
  fix go ts l {struct l} :=
    match l, ts with
    | [], [] => Some 0
    | x :: r, t :: ts' => bind (f t x) (fun a => add a (go ts' r))
    | _, _ => None
    end.

Definition out1 (f : val -> list byte -> option (list byte)) : list val -> list byte -> option (list byte) :=
  fix go l out := match l with
                  | [] => Some out
                  | x :: r => bind (f x out) (go r)
                  end.

Definition out_pairs (f g : val -> list byte -> option (list byte))
  : list (val * val) -> list byte -> option (list byte) :=
  fix go l out := match l with
                  | [] => Some out
                  | (k, x) :: r => bind (f k out) (fun o => bind (g x o) (go r))
                  end.

Definition out_fields (f : ty -> val -> list byte -> option (list byte))
  : list ty -> list val -> list byte -> option (list byte) :=
  fix go ts l out {struct l} :=
    match l, ts with
    | [], [] => Some out
    | x :: r, t :: ts' => bind (f t x out) (go ts' r)
    | _, _ => None
    end.

Definition in_n {A} (f : list byte -> option (A * list byte)) : nat -> list byte -> option (list A * list byte) :=
  fix go n inp := match n with
                  | O => Some ([], inp)
                  | S n' => bind (f inp) (fun '(x, i) => bind (go n' i) (fun '(l, i') => Some (x :: l, i')))
                  end.

Definition in_slots (f : val -> list byte -> option (val * list byte))
  : list val -> list byte -> option (list val * list byte) :=
  fix go os inp := match os with
                   | [] => Some ([], inp)
                   | o :: r => bind (f o inp) (fun '(x, i) => bind (go r i) (fun '(l, i') => Some (x :: l, i')))
                   end.

Definition in_fields (f : ty -> val -> list byte -> option (val * list byte))
  : list ty -> list val -> list byte -> option (list val * list byte) :=
  fix go ts os inp {struct ts} :=
    match ts, os with
    | [], [] => Some ([], inp)
    | t :: ts', o :: r => bind (f t o inp) (fun '(x, i) => bind (go ts' r i) (fun '(l, i') => Some (x :: l, i')))
    | _, _ => None
    end.

Section Ser.
Variable reg : registry.
(** operator< on the keys of std::set and std::map. *)
Variable ltb : val -> val -> bool.

(** The sizing pass: serializer.h:125-126,141-144,162-166,189-193; serializer.cc:94-99;
    serialize_list.h:60-69 (also set and map); serialize_vector.h:60-64,78-80;
    serialize_serializable.cc:53-60. Ill-typed values have no size. *)
Fixpoint size (t : ty) (v : val) {struct v} : option nat :=
  match t, v with
  | TPrim n, VPrim bs => if length bs =? n then Some n else None
  | TBool, VBool _ => Some sz_int
  | TStr, VStr bs => Some (sz_int + length bs)
  | TArr n, VPrim bs => if length bs =? n then Some n else None
  | TBin i e, VBuf _ n => Some (i + N.to_nat n * e)
  | TVoid i, VBuf p n => Some (i + match p with Some _ => N.to_nat n | None => 0 end)
  | TVec t', VSeq l => add sz_size_t (sum1 (size t') l)
  | TList t', VSeq l => add sz_size_t (sum1 (size t') l)
  | TSet t', VSeq l => add sz_size_t (sum1 (size t') l)
  | TMap tk tv, VMap l => add sz_size_t (sum_pairs (size tk) (size tv) l)
  | TPtr, VNull => Some sz_long
  | TPtr, VObj c fs => match reg c with
                       | Some ms => add sz_long (sum_fields size (map fst ms) fs)
                       | None => None
                       end
  | TStruct ts, VSeq l => sum_fields size ts l
  | TWire, VBuf p n => Some (sz_int + (8 + match p with Some _ => N.to_nat n | None => 0 end))
  | _, _ => None
  end.

(** ser_buffer_accessor::next and next_str when packing, serialize_buffer_accessor.h:66-81:
    advance, throw if past the end of the [cap]-byte buffer, write. [out] is what has
    been written. *)
Definition put (cap : nat) (bs : list byte) (out : list byte) : option (list byte) :=
  if length out + length bs <=? cap then Some (out ++ bs) else None.

(** The packing pass: serializer.h:128-129,145-149,167-176,194-203; serializer.cc:68-73,
    85-92; serialize_list.h:70-79; serialize_set.h:70-79; serialize_map.h:73-82;
    serialize_vector.h:65-69,78-80; serialize_serializable.cc:62-76. *)
Fixpoint pack (cap : nat) (t : ty) (v : val) (out : list byte) {struct v} : option (list byte) :=
  match t, v with
  | TPrim n, VPrim bs => if length bs =? n then put cap bs out else None
  | TBool, VBool b => put cap (enc sz_int (if b then 1 else 0)) out
  | TStr, VStr bs => bind (put cap (enc sz_int (N.of_nat (length bs))) out) (put cap bs)
  | TArr n, VPrim bs => if length bs =? n then put cap bs out else None
  | TBin i e, VBuf p n =>
      match p with
      | Some bs => if (n =? 0)%N then put cap (enc i 0) out
                   else bind (put cap (enc i n) out) (put cap (firstn (N.to_nat n * e) bs))
      | None => put cap (enc i 0) out
      end
  | TVoid i, VBuf p n =>
      match p with
      | Some bs => if (n =? 0)%N then put cap (enc i 0) out
                   else bind (put cap (enc i n) out) (put cap (firstn (N.to_nat n) bs))
      | None => put cap (enc i 0) out
      end
  | TVec t', VSeq l => bind (put cap (enc sz_size_t (N.of_nat (length l))) out) (out1 (pack cap t') l)
  | TList t', VSeq l => bind (put cap (enc sz_size_t (N.of_nat (length l))) out) (out1 (pack cap t') l)
  | TSet t', VSeq l => bind (put cap (enc sz_size_t (N.of_nat (length l))) out) (out1 (pack cap t') l)
  | TMap tk tv, VMap l =>
      bind (put cap (enc sz_size_t (N.of_nat (length l))) out) (out_pairs (pack cap tk) (pack cap tv) l)
  | TPtr, VNull => put cap (enc sz_long null_id) out
  | TPtr, VObj c fs =>
      match reg c with
      | Some ms => bind (put cap (enc sz_long c) out) (out_fields (pack cap) (map fst ms) fs)
      | None => None
      end
  | TStruct ts, VSeq l => out_fields (pack cap) ts l out
  | TWire, VBuf p n =>
      match p with
      | None => bind (put cap (enc sz_int 1) out) (put cap (enc 8 n))
      | Some bs =>
          bind (put cap (enc sz_int 0) out) (fun o =>
            if (n =? 0)%N then put cap (enc 8 0) o
            else bind (put cap (enc 8 n) o) (put cap (firstn (N.to_nat n) bs)))
      end
  | _, _ => None
  end.

(** Reading: the next [n] bytes; past the end is an overrun. *)
Definition get (n : nat) (inp : list byte) : option (list byte * list byte) :=
  if n <=? length inp then Some (firstn n inp, skipn n inp) else None.

(** A local variable "T t;" in the container loops, serialize_list.h:84: scalars and
    pointers are uninitialised, class types default-constructed. *)
Fixpoint dflt (t : ty) : val :=
  match t with
  | TPrim _ | TBool | TArr _ | TPtr => VUndef
  | TStr => VStr []
  | TBin _ _ | TVoid _ | TWire => VBuf None 0
  | TVec _ | TList _ | TSet _ => VSeq []
  | TMap _ _ => VMap []
  | TStruct ts => VSeq (map dflt ts)
  end.

(** An element added by vector::resize: value-initialised. *)
Fixpoint zero (t : ty) : val :=
  match t with
  | TPrim n | TArr n => VPrim (repeat 0%N n)
  | TBool => VBool false
  | TPtr => VNull
  | TStr => VStr []
  | TBin _ _ | TVoid _ | TWire => VBuf None 0
  | TVec _ | TList _ | TSet _ => VSeq []
  | TMap _ _ => VMap []
  | TStruct ts => VSeq (map zero ts)
  end.

(** std::set::insert and map's m[k]=v, on lists in iteration order. *)
Fixpoint ins (x : val) (l : list val) : list val :=
  match l with
  | [] => [x]
  | y :: r => if ltb x y then x :: l else if ltb y x then y :: ins x r else l
  end.

Fixpoint assign (k x : val) (l : list (val * val)) : list (val * val) :=
  match l with
  | [] => [(k, x)]
  | (k', x') :: r => if ltb k k' then (k, x) :: l
                     else if ltb k' k then (k', x') :: assign k x r else (k', x) :: r
  end.

Definition old_seq (o : val) : list val := match o with VSeq l => l | _ => [] end.
Definition old_map (o : val) : list (val * val) := match o with VMap l => l | _ => [] end.

(** The unpacking pass: serializer.h:131-132,150-154,177-181,204-208; serializer.cc:54-66,
    75-83; serialize_vector.h:70-80; serialize_list.h:80-89; serialize_set.h:80-89;
    serialize_map.h:83-94; serialize_serializable.cc:78-91. [o] is the previous content
    of the target. Result: new content and remaining input. [fuel] bounds the nesting
    of calls. *)
Fixpoint unpack (fuel : nat) (t : ty) (o : val) (inp : list byte) {struct fuel} : option (val * list byte) :=
  match fuel with
  | O => None
  | S f =>
    match t with
    | TPrim n | TArr n => bind (get n inp) (fun '(b, i) => Some (VPrim b, i))
    | TBool => bind (get sz_int inp) (fun '(b, i) => Some (VBool (negb (dec b =? 0)%N), i))
    | TStr => bind (get sz_int inp) (fun '(b, i) =>
              bind (get (N.to_nat (dec b)) i) (fun '(s, i') => Some (VStr s, i')))
    | TBin n e => bind (get n inp) (fun '(b, i) =>
                  if (dec b =? 0)%N then Some (VBuf None 0, i)
                  else bind (get (N.to_nat (dec b) * e) i) (fun '(s, i') => Some (VBuf (Some s) (dec b), i')))
    | TVoid n => bind (get n inp) (fun '(b, i) =>
                 if (dec b =? 0)%N then Some (VBuf None 0, i)
                 else bind (get (N.to_nat (dec b)) i) (fun '(s, i') => Some (VBuf (Some s) (dec b), i')))
    | TVec t' => bind (get sz_size_t inp) (fun '(b, i) =>
                 let n := N.to_nat (dec b) in
                 let os := old_seq o in
                 bind (in_slots (unpack f t') (firstn n os ++ repeat (zero t') (n - length os)) i)
                      (fun '(l, i') => Some (VSeq l, i')))
    | TList t' => bind (get sz_size_t inp) (fun '(b, i) =>
                  bind (in_n (unpack f t' (dflt t')) (N.to_nat (dec b)) i) (fun '(l, i') => Some (VSeq (old_seq o ++ l), i')))
    | TSet t' => bind (get sz_size_t inp) (fun '(b, i) =>
                 bind (in_n (unpack f t' (dflt t')) (N.to_nat (dec b)) i) (fun '(l, i') =>
                   Some (VSeq (fold_left (fun s x => ins x s) l (old_seq o)), i')))
    | TMap tk tv => bind (get sz_size_t inp) (fun '(b, i) =>
                    bind (in_n (fun i1 => bind (unpack f tk (dflt tk) i1) (fun '(k, i2) =>
                                  bind (unpack f tv (dflt tv) i2) (fun '(x, i3) => Some ((k, x), i3))))
                               (N.to_nat (dec b)) i) (fun '(l, i') =>
                      Some (VMap (fold_left (fun s kv => assign (fst kv) (snd kv) s) l (old_map o)), i')))
    | TPtr => bind (get sz_long inp) (fun '(b, i) =>
              if (dec b =? null_id)%N then Some (o, i)
              else bind (reg (dec b)) (fun ms =>
                   bind (in_fields (unpack f) (map fst ms) (map snd ms) i) (fun '(l, i') => Some (VObj (dec b) l, i'))))
    | TStruct ts => bind (in_fields (unpack f) ts (old_seq o) inp) (fun '(l, i') => Some (VSeq l, i'))
    | TWire => bind (get sz_int inp) (fun '(b, i) =>
               if (dec b =? 0)%N
               then bind (get 8 i) (fun '(b2, i2) =>
                    if (dec b2 =? 0)%N then Some (VBuf None 0, i2)
                    else bind (get (N.to_nat (dec b2)) i2) (fun '(s, i') => Some (VBuf (Some s) (dec b2), i')))
               else bind (get 8 i) (fun '(b2, i2) =>
                    Some (VBuf (match o with VBuf p _ => p | _ => None end) (dec b2), i2)))
    end
  end.

End Ser.

(** The members serialized, in order, by Flow (flow.h:87-91), NetworkMessage
    (network_message.cc:284-319; time_started_ and injection_started_ appear twice),
    Message (sumi/message.cc:84-95), Packet (hardware/common/packet.cc:75-88),
    PiscesPacket (pisces.cc:73-80) and PiscesCredit (pisces.cc:100-107). Timestamps are
    16 bytes, TimeDelta, addresses of buffers and 64-bit numbers 8, enums and ints 4. *)
Definition flow_ty : list ty := [TPrim 8; TPrim 8; TStr].
Definition netmsg_ty : list ty :=
  flow_ty ++ [TWire; TPrim 16; TPrim 16; TPrim 16; TPrim 4; TBool; TPrim 4; TPrim 4; TPrim 4; TPrim 4;
              TPrim 16; TPrim 16; TPrim 8; TPrim 8; TPrim 8; TPrim 8; TPrim 8; TPrim 8].
Definition message_ty : list ty :=
  [TPrim 16; TPrim 8; TPrim 4; TPrim 4; TPrim 4; TPrim 4; TPrim 4] ++ netmsg_ty.
Definition packet_ty : list ty :=
  [TPrim 4; TPrim 4; TPrim 8; TPrim 4; TPrim 4; TPtr; TArr 16; TArr 8; TArr 8].
Definition pisces_ty : list ty := packet_ty ++ [TPrim 16; TPrim 4].
Definition credit_ty : list ty := [TPrim 4; TPrim 4; TPrim 4].

(** A PiscesPacket crossing ranks. Its members (pisces.h:170-182, packet.h) are those of
    [pisces_ty] followed by byte_delay_, stage_, outports_, inport_, which
    PiscesPacket::serialize_order (pisces.cc:73-80) does not mention. The receiver has a
    default-constructed packet (pisces.h:168, packet.h:172): zeros and a null payload,
    TimeDelta() and Timestamp() are 0, the other members uninitialised. *)
Definition pisces_new : list val :=
  [VPrim (repeat 0%N 4); VPrim (repeat 0%N 4); VPrim (repeat 0%N 8); VPrim (repeat 0%N 4); VPrim (repeat 0%N 4); VNull;
   VPrim (repeat 0%N 16); VPrim (repeat 0%N 8); VPrim (repeat 0%N 8); VPrim (repeat 0%N 16); VUndef].
Definition pisces_rest_new : list val := [VPrim (repeat 0%N 8); VUndef; VUndef; VUndef].

Definition transfer_pisces (reg : registry) (ltb : val -> val -> bool) (fuel : nat) (fs : list val) : option (list val) :=
  let n := length pisces_ty in
  match size reg (TStruct pisces_ty) (VSeq (firstn n fs)) with
  | Some s =>
      match pack reg s (TStruct pisces_ty) (VSeq (firstn n fs)) [] with
      | Some bs =>
          match unpack reg ltb fuel (TStruct pisces_ty) (VSeq pisces_new) bs with
          | Some (VSeq l, _) => Some (l ++ pisces_rest_new)
          | _ => None
          end
      | None => None
      end
  | None => None
  end.
