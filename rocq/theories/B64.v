(** Model of utils/b64tools.cc (lines 1-59).  Bytes are [N] below 256. *)
From Coq Require Import List NArith Bool Lia.
From Coq Require Import String Ascii.
Import ListNotations.
Open Scope N_scope.

Definition byte_ok (b : N) : Prop := b < 256.

Definition codes (s : string) : list N := map N_of_ascii (list_ascii_of_string s).

(** b64tools.cc:8 [cb64]. *)
Definition cb64 : list N :=
  codes "ABCDEFGHIJKLMNOPQRSTUVWXYZabcdefghijklmnopqrstuvwxyz0123456789+/".
(** b64tools.cc:9 [cd64]. *)
Definition cd64 : list N :=
  codes "|$$$}rstuvwxyz{$$$$$$$>?@ABCDEFGHIJKLMNOPQRSTUVW$$$$$$XYZ[\]^_`abcdefghijklmnopq".

(** Array reads: the tables are only indexed in range (proved), 0 otherwise. *)
Definition tab (t : list N) (i : N) : N := nth (N.to_nat i) t 0.

Definition u8 (n : N) : N := n mod 256.
Definition EQ : N := 61. (* '=' *)
Definition DOLLAR : N := 36.

(** b64tools.cc:11-19 [encodeblock(in, os, len)]; [in1], [in2] are only looked
    at when [len] says so, so they are arbitrary otherwise. *)
Definition encodeblock (in0 in1 in2 : N) (len : N) : list N :=
  let out0 := tab cb64 (N.shiftr in0 2) in
  let out1 := tab cb64 (N.lor (N.shiftl (N.land in0 3) 4)
                              (if 1 <? len then N.shiftr (N.land in1 240) 4 else 0)) in
  let out2 := if 2 <? len
              then tab cb64 (N.lor (N.shiftl (N.land in1 15) 2) (N.shiftr (N.land in2 192) 6))
              else EQ in
  let out3 := if 2 <? len then tab cb64 (N.land in2 63) else EQ in
  [out0; out1; out2; out3].

(** b64tools.cc:21-28 [b64encode]. *)
Fixpoint b64encode (data : list N) : list N :=
  match data with
  | [] => []
  | [a] => encodeblock a 0 0 1
  | [a; b] => encodeblock a b 0 2
  | a :: b :: c :: rest => encodeblock a b c 3 ++ b64encode rest
  end.

(** b64tools.cc:30-34 [decodeblock]. *)
Definition decodeblock (i0 i1 i2 i3 : N) : list N :=
  [ u8 (N.lor (N.shiftl i0 2) (N.shiftr i1 4));
    u8 (N.lor (N.shiftl i1 4) (N.shiftr i2 2));
    u8 (N.lor (N.land (N.shiftl i2 6) 192) i3) ].

(** b64tools.cc:43-50: one input character; [None] = "return false". *)
Definition decode_char (c : N) : option N :=
  let v := if (c <? 43) || (122 <? c) then 0 else tab cd64 (c - 43) in
  if v =? 0 then None
  else
    let v' := if v =? DOLLAR then 0 else v - 61 in
    Some (if v' =? 0 then 0 else v' - 1).

Inductive dres :=
| DOk (out : list N)    (* returned true, having written these bytes *)
| DFalse                (* returned false *)
| DUndef.               (* failed assertion, read past the input or write past the output *)

(** b64tools.cc:36-57 [b64decode(data, insize, out, outsize)].  A group of fewer
    than four remaining characters makes the code read past the input.  The
    assertion in line 41 only checks [ocur < outsize]; writing the three bytes
    needs [ocur + 3 <= outsize]. *)
Fixpoint b64decode (data : list N) (ocur outsize : N) : dres :=
  match data with
  | [] => DOk []
  | c0 :: r0 =>
    if ocur <? outsize then
      match decode_char c0 with None => DFalse | Some i0 =>
      match r0 with [] => DUndef | c1 :: r1 =>
      match decode_char c1 with None => DFalse | Some i1 =>
      match r1 with [] => DUndef | c2 :: r2 =>
      match decode_char c2 with None => DFalse | Some i2 =>
      match r2 with [] => DUndef | c3 :: r3 =>
      match decode_char c3 with None => DFalse | Some i3 =>
        if ocur + 3 <=? outsize then
          match b64decode r3 (ocur + 3) outsize with
          | DOk out => DOk (decodeblock i0 i1 i2 i3 ++ out)
          | e => e
          end
        else DUndef
      end end end end end end end
    else DUndef
  end.
