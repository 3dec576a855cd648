(** Model of utils/array2d.h: class Array2D<T> (lines 10-84).  [W] is the number
    of values of [unsigned] (2^32 in the code): products and sums of unsigned
    values are reduced mod [W].  A failed assertion, or an access outside the
    vector, is [None]. *)
From Coq Require Import List Arith Bool Lia.
Import ListNotations.

Section A2D.
Variable T : Type.
Variable W : nat.

Record arr := mkArr { width_ : nat; height_ : nat; data_ : list T }.

(** Line 17. *)
Definition a_empty : arr := mkArr 0 0 [].
(** Lines 18-19. *)
Definition a_new (w h : nat) (d : T) : arr := mkArr w h (repeat d ((w * h) mod W)).
(** std::vector::resize *)
Definition vec_resize (l : list T) (n : nat) (d : T) : list T := firstn n l ++ repeat d (n - length l).
(** Lines 23-27. *)
Definition a_resize (a : arr) (w h : nat) (d : T) : arr :=
  mkArr w h (vec_resize (data_ a) ((w * h) mod W) d).
(** Line 34. *)
Definition a_fill (a : arr) (v : T) : arr :=
  mkArr (width_ a) (height_ a) (repeat v (length (data_ a))).
(** Line 40. *)
Definition a_clear (a : arr) : arr := mkArr 0 0 [].
(** Lines 74-78 [offset]. *)
Definition offset (a : arr) (i j : nat) : option nat :=
  if (i <? width_ a) && (j <? height_ a) then Some ((i + (j * width_ a) mod W) mod W) else None.
(** Lines 37-43 operator(). *)
Definition a_get (a : arr) (i j : nat) : option T :=
  match offset a i j with Some o => nth_error (data_ a) o | None => None end.
Fixpoint lset (l : list T) (n : nat) (v : T) : option (list T) :=
  match l, n with
  | [], _ => None
  | _ :: r, O => Some (v :: r)
  | x :: r, S n' => option_map (cons x) (lset r n' v)
  end.
Definition a_set (a : arr) (i j : nat) (v : T) : option arr :=
  match offset a i j with
  | Some o => option_map (mkArr (width_ a) (height_ a)) (lset (data_ a) o v)
  | None => None
  end.
(** Lines 44-55: the cells [begin_col(j), end_col(j)); line 47 evaluates
    offset(0,j), whose assertion needs width > 0. *)
Definition a_col (a : arr) (j : nat) : option (list T) :=
  match offset a 0 j with
  | Some o => if o + width_ a <=? length (data_ a) then Some (firstn (width_ a) (skipn o (data_ a))) else None
  | None => None
  end.
(** Lines 66-71: std::transform(m.begin, m.end, data_.begin, data_.begin, op).
    (The C++ functions lack a return statement; the effect on the data is
    modelled.) *)
Fixpoint transform2 (op : T -> T -> T) (m d : list T) : option (list T) :=
  match m, d with
  | [], _ => Some d
  | x :: m', y :: d' => option_map (cons (op x y)) (transform2 op m' d')
  | _ :: _, [] => None
  end.
Definition a_op_eq (op : T -> T -> T) (a m : arr) : option arr :=
  option_map (mkArr (width_ a) (height_ a)) (transform2 op (data_ m) (data_ a)).

Inductive acmd :=
| ASet (i j : nat) (v : T)
| AFill (v : T)
| AResize (w h : nat) (d : T)
| AClear.
Definition aexec (a : arr) (c : acmd) : option arr :=
  match c with
  | ASet i j v => a_set a i j v
  | AFill v => Some (a_fill a v)
  | AResize w h d => Some (a_resize a w h d)
  | AClear => Some (a_clear a)
  end.
Fixpoint aexec_all (a : arr) (p : list acmd) : option arr :=
  match p with
  | [] => Some a
  | c :: p' => match aexec a c with Some a' => aexec_all a' p' | None => None end
  end.
End A2D.
Arguments mkArr {T}. Arguments width_ {T}. Arguments height_ {T}. Arguments data_ {T}.
