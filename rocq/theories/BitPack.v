(** Model of klm/util/bit_packing.hh and bit_packing.cc, for both byte orders.

    Memory is a list of bytes (numbers below 256).  Offsets and lengths are
    [nat], integer values [N].  Accesses outside the memory and shifts by the
    width of the type or more are undefined: [None].  A float is represented by
    its 32-bit pattern. *)
From Coq Require Import List Arith NArith ZArith Bool Lia.
Import ListNotations.

Inductive endian := LE | BE.

Notation "'do' x <- e ; f" := (match e with Some x => f | None => None end)
  (at level 200, x pattern, e at level 100, f at level 200).

Section BP.
Variable e : endian.

(** Little-endian value of a byte sequence and its inverse. *)
Fixpoint dec (l : list N) : N :=
  match l with [] => 0%N | b :: r => N.lor b (N.shiftl (dec r) 8) end.
Fixpoint enc (n : nat) (v : N) : list N :=
  match n with O => [] | S n' => N.land v 255 :: enc n' (N.shiftr v 8) end.

Definition num (l : list N) : N := match e with LE => dec l | BE => dec (rev l) end.
Definition bytes (n : nat) (v : N) : list N := match e with LE => enc n v | BE => rev (enc n v) end.

(** Unaligned load and store of an [n]-byte integer. *)
Definition load (n : nat) (mem : list N) (at_ : nat) : option N :=
  if at_ + n <=? length mem then Some (num (firstn n (skipn at_ mem))) else None.
Definition store (n : nat) (mem : list N) (at_ : nat) (v : N) : option (list N) :=
  if at_ + n <=? length mem then Some (firstn at_ mem ++ bytes n v ++ skipn (at_ + n) mem) else None.

(** bit_packing.hh:37-44 BitPackShift; the result is a uint8_t. *)
Definition bps (bit len : nat) : nat :=
  match e with LE => bit | BE => Z.to_nat ((64 - Z.of_nat len - Z.of_nat bit) mod 256) end.

(** Shifts of a [w]-bit unsigned integer. *)
Definition shr (w : nat) (x : N) (s : nat) : option N :=
  if s <? w then Some (N.shiftr x (N.of_nat s)) else None.
Definition shl (w : nat) (x : N) (s : nat) : option N :=
  if s <? w then Some (N.modulo (N.shiftl x (N.of_nat s)) (2 ^ N.of_nat w)) else None.

(** bit_packing.hh:49-58 *)
Definition ReadOff (mem : list N) (bit_off : nat) : option N := load 8 mem (bit_off / 8).

(** bit_packing.hh:64-66 *)
Definition ReadInt57 (mem : list N) (bit_off len : nat) (mask : N) : option N :=
  do w <- ReadOff mem bit_off ;
  do x <- shr 64 w (bps (bit_off mod 8) len) ;
  Some (N.land x mask).

(** bit_packing.hh:70-81 *)
Definition WriteInt57 (mem : list N) (bit_off len : nat) (value : N) : option (list N) :=
  do w <- load 8 mem (bit_off / 8) ;
  do x <- shl 64 value (bps (bit_off mod 8) len) ;
  store 8 mem (bit_off / 8) (N.lor w x).

(** bit_packing.hh:84-93 *)
Definition ReadInt25 (mem : list N) (bit_off len : nat) (mask : N) : option N :=
  do w <- load 4 mem (bit_off / 8) ;
  do x <- shr 32 w (bps (bit_off mod 8) len) ;
  Some (N.land x mask).

(** bit_packing.hh:95-106 *)
Definition WriteInt25 (mem : list N) (bit_off len : nat) (value : N) : option (list N) :=
  do w <- load 4 mem (bit_off / 8) ;
  do x <- shl 32 value (bps (bit_off mod 8) len) ;
  store 4 mem (bit_off / 8) (N.lor w x).

(** bit_packing.hh:121 *)
Definition kSignBit : N := (2 ^ 31)%N.

(** bit_packing.hh:110-119; the shifted word is truncated to uint32_t. *)
Definition ReadFloat32 (mem : list N) (bit_off : nat) : option N :=
  do w <- ReadOff mem bit_off ;
  do x <- shr 64 w (bps (bit_off mod 8) 32) ;
  Some (N.modulo x (2 ^ 32)).
Definition WriteFloat32 (mem : list N) (bit_off : nat) (value : N) : option (list N) :=
  WriteInt57 mem bit_off 32 value.

(** bit_packing.hh:137-149 *)
Definition ReadNonPositiveFloat31 (mem : list N) (bit_off : nat) : option N :=
  do w <- ReadOff mem bit_off ;
  do x <- shr 64 w (bps (bit_off mod 8) 31) ;
  Some (N.lor (N.modulo x (2 ^ 32)) kSignBit).
Definition WriteNonPositiveFloat31 (mem : list N) (bit_off : nat) (value : N) : option (list N) :=
  WriteInt57 mem bit_off 31 (N.land value (2 ^ 31 - 1)).

End BP.

(** bit_packing.cc:17-22 RequiredBits: while (max_value >>= 1) ++ret. *)
Fixpoint req_loop (fuel : nat) (v : N) (ret : nat) : nat :=
  match fuel with
  | O => ret
  | S f => let v' := N.shiftr v 1 in if N.eqb v' 0 then ret else req_loop f v' (S ret)
  end.
Definition RequiredBits (max_value : N) : nat :=
  if N.eqb max_value 0 then 0 else req_loop 64 max_value 1.

(** bit_packing.hh:157-175: the mask of BitsMask::ByBits / FromMax. *)
Definition mask_of (bits : nat) : option N :=
  if bits <? 64 then Some (N.modulo (N.shiftl 1 (N.of_nat bits)) (2 ^ 64) - 1)%N else None.
Definition FromMax (max_value : N) : option (nat * N) :=
  let b := RequiredBits max_value in do m <- mask_of b ; Some (b, m).

(** The kinds of fields, for programs that mix them. *)
Inductive kind := Int57 (len : nat) | Int25 (len : nat) | Float32 | Float31.
Definition write (e : endian) (mem : list N) (f : nat * kind * N) : option (list N) :=
  let '(off, k, v) := f in
  match k with
  | Int57 len => WriteInt57 e mem off len v
  | Int25 len => WriteInt25 e mem off len v
  | Float32 => WriteFloat32 e mem off v
  | Float31 => WriteNonPositiveFloat31 e mem off v
  end.
Definition read (e : endian) (mem : list N) (off : nat) (k : kind) : option N :=
  match k with
  | Int57 len => do m <- mask_of len ; ReadInt57 e mem off len m
  | Int25 len => do m <- mask_of len ; ReadInt25 e mem off len m
  | Float32 => ReadFloat32 e mem off
  | Float31 => ReadNonPositiveFloat31 e mem off
  end.
Fixpoint write_all (e : endian) (mem : list N) (fs : list (nat * kind * N)) : option (list N) :=
  match fs with [] => Some mem | f :: r => do mem' <- write e mem f ; write_all e mem' r end.
