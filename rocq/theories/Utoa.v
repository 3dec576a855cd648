(** Model of utils/utoa.h.  Everything is parameterised by the width [w] of the
    integer type (8, 16, 32, 64).  Text is written right to left ending at [buf];
    the model keeps the bytes written so far ([out]) and the number of bytes
    still available to the left of the pointer ([room]); writing without room is
    undefined ([None]). *)
From Coq Require Import List ZArith Bool Lia.
Import ListNotations.
Open Scope Z_scope.

(** Conversion to / from the unsigned type of width [w]. *)
Definition to_u (w z : Z) : Z := z mod 2 ^ w.

Definition wstate := (nat * list Z)%type.  (* room, bytes written *)
Definition push (s : wstate) (c : Z) : option wstate :=
  match fst s with O => None | S r => Some (r, c :: snd s) end.

(** utoa.h:66-73 [digit_to_char]: digits[d], d in 0..9. *)
Definition digit_to_char (d : Z) : option Z :=
  if (0 <=? d) && (d <=? 9) then Some (48 + d) else None.

(** utoa.h:19,86-89: while (n) { rem = n; n /= 10; rem -= 10*n; *--buf = digit(rem); }
    [fuel] bounds the iterations; running out is [None]. *)
Fixpoint utoa_loop (w : Z) (fuel : nat) (n : Z) (s : wstate) : option wstate :=
  if n =? 0 then Some s
  else
    match fuel with
    | O => None
    | S f =>
        let n' := n / 10 in
        let rem := to_u w (n - to_u w (10 * n')) in
        match digit_to_char rem with
        | None => None
        | Some c => match push s c with
                    | None => None
                    | Some s' => utoa_loop w f n' s'
                    end
        end
    end.

(** utoa.h:77-92 [utoa(buf, n_)]. *)
Definition utoa (w : Z) (n_ : Z) (s : wstate) : option wstate :=
  let n := to_u w n_ in
  if n =? 0 then push s 48
  else utoa_loop w (Z.to_nat w) n s.

(** utoa.h:144-156 [itoa(buf, i, positive_sign)]. *)
Definition itoa (w : Z) (i : Z) (positive_sign : bool) (s : wstate) : option wstate :=
  let n := to_u w i in
  let n := if i <? 0 then to_u w (- n) else n in
  match utoa w n s with
  | None => None
  | Some r =>
      if i <? 0 then push r 45
      else if positive_sign then push r 43
      else Some r
  end.

(** std::numeric_limits<t>::digits10 for the types of lines 44-47. *)
Definition digits10 (w : Z) (sgn : bool) : nat :=
  if w =? 8 then 2%nat else if w =? 16 then 4%nat else if w =? 32 then 9%nat
  else if w =? 64 then (if sgn then 18%nat else 19%nat) else 0%nat.
(** utoa.h:36 toa_bufsize. *)
Definition toa_bufsize (w : Z) (sgn : bool) : nat := (3 + digits10 w sgn)%nat.

(** utoa.h:172-178 [utos(n)] and 180-186 [itos(n)]. [sgn] tells whether [Int] is
    the signed or the unsigned type. *)
Definition utos (w : Z) (sgn : bool) (n : Z) : option (list Z) :=
  option_map snd (utoa w n (toa_bufsize w sgn, [])).
Definition itos (w : Z) (sgn : bool) (n : Z) : option (list Z) :=
  option_map snd (itoa w n false (toa_bufsize w sgn, [])).

(** utoa.h:203-214 [append_itoa<Int>(to, n)]: calls utoa (line 208). The result
    is the text copied to [to] (line 210). *)
Definition append_itoa (w : Z) (sgn : bool) (n : Z) : option (list Z) :=
  option_map snd (utoa w n (toa_bufsize w sgn, [])).
(** utoa.h:190-201 [append_utoa<Int>(to, n)]: calls itoa (line 195). *)
Definition append_utoa (w : Z) (sgn : bool) (n : Z) : option (list Z) :=
  option_map snd (itoa w n false (toa_bufsize w sgn, [])).

(** utoa.h:95-99 [left_pad(left, buf, pad)]: fills up to [left]; [width] is
    bufend - left, [assert(buf <= r)] of line 104. *)
Definition utoa_left_pad (w : Z) (width : nat) (n pad : Z) : option (list Z) :=
  match utoa w n (width, []) with
  | None => None
  | Some (room, out) => Some (repeat pad room ++ out)
  end.

(** utoa.h:111-137 [utoa_drop_trailing_0]. *)
Fixpoint drop0_loop (w : Z) (fuel : nat) (n : Z) (skipped : Z) (s : wstate)
  : option (wstate * Z) :=
  match fuel with
  | O => None
  | S f =>
      if n =? 0 then None (* assert(0), line 134 *)
      else
        let n' := n / 10 in
        let rem := to_u w (n - to_u w (10 * n')) in
        if rem =? 0 then drop0_loop w f n' (skipped + 1) s
        else
          match digit_to_char rem with
          | None => None
          | Some c =>
              match push s c with
              | None => None
              | Some s' => option_map (fun r => (r, skipped)) (utoa_loop w (Z.to_nat w) n' s')
              end
          end
  end.
Definition utoa_drop_trailing_0 (w n_ : Z) (s : wstate) : option (wstate * Z) :=
  let n := to_u w n_ in
  if n =? 0 then option_map (fun r => (r, 0)) (push s 48)
  else drop0_loop w (S (Z.to_nat w)) n 0 s.
