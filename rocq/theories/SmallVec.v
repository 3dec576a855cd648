(** Model of utils/small_vector.h: SmallVector<T, SV_MAX>.

    The element type [T] and SV_MAX ([M]) are arbitrary.  The heap is explicit:
    [new T[n]] allocates a block of [n] uninitialised cells, [delete[]] frees it,
    and any access to a freed block or outside a block is [UB].  A cell is
    [None] while its contents are indeterminate.  The union [data_] is either
    the inline array or a pointer; the bytes of a pointer read as inline values
    are indeterminate cells.  size_ and capacity_ are 16-bit: conversions to
    uint16_t are [wr16] (mod [W]; the code has W = 2^16), the assertion limit of
    Alloc is [A] (0xA000 in the code).  A failed assertion is [Fail].
    Simplification: the element-wise copy loops are block operations with one
    bounds check. *)
From Coq Require Import List Arith Bool Lia.
Import ListNotations.

Section SV.
Variable T : Type.
Variable teqb : T -> T -> bool.
Variable tdef : T.                 (* T() *)
Variables M W A : nat.

Inductive res (X : Type) := Ok (x : X) | Fail | UB.
Arguments Ok {X}. Arguments Fail {X}. Arguments UB {X}.
Definition bind {X Y} (r : res X) (f : X -> res Y) : res Y :=
  match r with Ok x => f x | Fail => Fail | UB => UB end.
Notation "'do' x <- r ; e" := (bind r (fun x => e)) (at level 200, x pattern, r at level 100, e at level 200).
Definition check (b : bool) : res unit := if b then Ok tt else Fail.

Local Notation cell := (option T).
Local Notation block := (list cell).
Local Notation heap := (list (option block)).
Inductive data := Vals (v : list cell) | Ptr (a : nat).
Record sv := mkSv { dat : data; size : nat; cap : nat }.

Definition wr16 (n : nat) : nat := n mod W.

Definition get_block (h : heap) (a : nat) : res block :=
  match nth_error h a with Some (Some b) => Ok b | _ => UB end.
Fixpoint set_at {X} (l : list X) (i : nat) (x : X) : list X :=
  match l, i with [], _ => [] | _ :: r, O => x :: r | y :: r, S i' => y :: set_at r i' x end.
Definition splice {X} (l : list X) (off : nat) (new : list X) : list X :=
  firstn off l ++ new ++ skipn (off + length new) l.
(** new T[n] *)
Definition alloc (h : heap) (n : nat) : nat * heap := (length h, h ++ [Some (repeat None n)]).
(** delete[] *)
Definition free (h : heap) (a : nat) : res heap :=
  do _ <- get_block h a; Ok (set_at h a None).
(** Read cells [off, off+n) of a block. *)
Definition blk_read (h : heap) (a off n : nat) : res (list cell) :=
  do b <- get_block h a;
  if off + n <=? length b then Ok (firstn n (skipn off b)) else UB.
Definition blk_write (h : heap) (a off : nat) (new : list cell) : res heap :=
  do b <- get_block h a;
  if off + length new <=? length b then Ok (set_at h a (Some (splice b off new))) else UB.
Definition vals_of (d : data) : list cell :=
  match d with Vals v => v | Ptr _ => repeat None M end.
Definition vals_read (d : data) (off n : nat) : res (list cell) :=
  if off + n <=? M then Ok (firstn n (skipn off (vals_of d))) else UB.
Definition vals_write (d : data) (off : nat) (new : list cell) : res data :=
  if off + length new <=? M then Ok (Vals (splice (vals_of d) off new)) else UB.
(** data_.ptr, when the pointer is the stored member. *)
Definition ptr_of (d : data) : res nat := match d with Ptr a => Ok a | Vals _ => UB end.

(** Lines 37: default constructor. *)
Definition ctor (h : heap) : res (heap * sv) := Ok (h, mkSv (Vals (repeat None M)) 0 0).

(** Lines 25-33 [Alloc(s)]. *)
Definition Alloc (h : heap) (s : nat) : res (heap * sv) :=
  do _ <- check (s <? A);
  if M <? s then let '(a, h1) := alloc h s in Ok (h1, mkSv (Ptr a) (wr16 s) (wr16 s))
  else Ok (h, mkSv (Vals (repeat None M)) (wr16 s) 0).

(** Lines 50-55 [SmallVector(s)]: elements are value-initialised only when they
    are inline; [new T[s]] leaves a POD uninitialised. *)
Definition ctor_n (h : heap) (s : nat) : res (heap * sv) :=
  do (h1, o) <- Alloc h s;
  if s <=? M then
    do d <- vals_write (dat o) 0 (repeat (Some tdef) s); Ok (h1, mkSv d (size o) (cap o))
  else Ok (h1, o).

(** Lines 57-64 [SmallVector(s, v)]; lines 68-75 [SmallVector(begin, end)] with
    the pointed-to values [l] (57-64 is the case of equal values). *)
Definition ctor_range (h : heap) (l : list T) : res (heap * sv) :=
  let s := length l in
  do (h1, o) <- Alloc h s;
  if s <=? M then
    do d <- vals_write (dat o) 0 (map Some l); Ok (h1, mkSv d (size o) (cap o))
  else
    do a <- ptr_of (dat o);
    do h2 <- blk_write h1 a 0 (map Some l); Ok (h2, o).

(** Lines 77-86 copy constructor. *)
Definition ctor_copy (h : heap) (o : sv) : res (heap * sv) :=
  if size o <=? M then
    do c <- vals_read (dat o) 0 (size o);
    do d <- vals_write (Vals (repeat None M)) 0 c;
    Ok (h, mkSv d (size o) 0)
  else
    let '(a, h1) := alloc h (size o) in
    do src <- ptr_of (dat o);
    do c <- blk_read h1 src 0 (size o);
    do h2 <- blk_write h1 a 0 c;
    Ok (h2, mkSv (Ptr a) (size o) (size o)).

(** Lines 105-132 operator=; [o] is the target, [s] the source. *)
Definition assign (h : heap) (o s : sv) : res (heap * sv) :=
  if size o <=? M then
    if size s <=? M then
      do c <- vals_read (dat s) 0 M;
      do d <- vals_write (dat o) 0 c;
      Ok (h, mkSv d (size s) (cap o))
    else
      let '(a, h1) := alloc h (size s) in
      do src <- ptr_of (dat s);
      do c <- blk_read h1 src 0 (size s);
      do h2 <- blk_write h1 a 0 c;
      Ok (h2, mkSv (Ptr a) (size s) (size s))
  else
    do p <- ptr_of (dat o);
    if size s <=? M then
      do h1 <- free h p;
      do c <- vals_read (dat s) 0 (size s);
      do d <- vals_write (dat o) 0 c;
      Ok (h1, mkSv d (size s) (cap o))
    else
      do (h1, p1, c1) <-
        (if cap o <? size s then
           do h1 <- free h p;
           let '(a, h2) := alloc h1 (size s) in Ok (h2, a, size s)
         else Ok (h, p, cap o));
      do src <- ptr_of (dat s);
      do c <- blk_read h1 src 0 (size s);
      do h2 <- blk_write h1 p1 0 c;
      Ok (h2, mkSv (Ptr p1) (size s) c1).

(** Lines 134-142 destructor. *)
Definition dtor (h : heap) (o : sv) : res heap :=
  if size o <=? M then Ok h else do p <- ptr_of (dat o); free h p.

(** Lines 144-149 clear: the union keeps the dangling pointer. *)
Definition clear (h : heap) (o : sv) : res (heap * sv) :=
  do h1 <- (if M <? size o then do p <- ptr_of (dat o); free h p else Ok h);
  Ok (h1, mkSv (dat o) 0 (cap o)).

(** Lines 154-163 ensure_capacity; the argument is converted to uint16_t. *)
Definition ensure_capacity (h : heap) (o : sv) (min_size_ : nat) : res (heap * sv) :=
  let min_size := wr16 min_size_ in
  do _ <- check (M <? min_size);
  if min_size <? cap o then Ok (h, o)
  else
    let new_cap := Nat.max (wr16 (2 * cap o)) min_size in
    let '(tmp, h1) := alloc h new_cap in
    do p <- ptr_of (dat o);
    do c <- blk_read h1 p 0 (cap o);
    do h2 <- blk_write h1 tmp 0 c;
    do h3 <- free h2 p;
    Ok (h3, mkSv (Ptr tmp) (size o) new_cap).

(** Lines 166-171 copy_vals_to_ptr. *)
Definition copy_vals_to_ptr (h : heap) (o : sv) : res (heap * sv) :=
  let '(tmp, h1) := alloc h (wr16 (M * 2)) in
  do c <- vals_read (dat o) 0 M;
  do h2 <- blk_write h1 tmp 0 c;
  Ok (h2, mkSv (Ptr tmp) (size o) (wr16 (M * 2))).

(** Lines 172-178 ptr_to_small. *)
Definition ptr_to_small (h : heap) (o : sv) : res (heap * sv) :=
  do _ <- check (size o <=? M);
  do tmp <- ptr_of (dat o);
  do c <- blk_read h tmp 0 (size o);
  do d <- vals_write (dat o) 0 c;
  do h1 <- free h tmp;
  Ok (h1, mkSv d (size o) (cap o)).

(** The argument of push_back is a reference: to a value outside the vector, or
    to one of the vector's own elements (inline cell or heap cell). *)
Inductive vref := RExt (v : T) | RVals (i : nat) | RPtr (a i : nat).
Definition ref_read (h : heap) (o : sv) (r : vref) : res T :=
  match r with
  | RExt v => Ok v
  | RVals i => do c <- vals_read (dat o) i 1; match c with [Some v] => Ok v | _ => UB end
  | RPtr a i => do c <- blk_read h a i 1; match c with [Some v] => Ok v | _ => UB end
  end.
(** Lines 254-257: the reference denoted by o[i]. *)
Definition elem_ref (o : sv) (i : nat) : res vref :=
  if size o <=? M then Ok (RVals i) else do p <- ptr_of (dat o); Ok (RPtr p i).

(** Lines 182-194 push_back. *)
Definition push_back (h : heap) (o : sv) (r : vref) : res (heap * sv) :=
  if size o <? M then
    do v <- ref_read h o r;
    do d <- vals_write (dat o) (size o) [Some v];
    Ok (h, mkSv d (wr16 (size o + 1)) (cap o))
  else
    do (h1, o1) <-
      (if size o =? M then copy_vals_to_ptr h o
       else if size o =? cap o then ensure_capacity h o (size o + 1)
       else Ok (h, o));
    do v <- ref_read h1 o1 r;
    do p <- ptr_of (dat o1);
    do h2 <- blk_write h1 p (size o1) [Some v];
    Ok (h2, mkSv (dat o1) (wr16 (size o1 + 1)) (cap o1)).

(** Lines 201-206 pop_back. *)
Definition pop_back (h : heap) (o : sv) : res (heap * sv) :=
  do _ <- check (0 <? size o);
  let o1 := mkSv (dat o) (size o - 1) (cap o) in
  if size o1 =? M then ptr_to_small h o1 else Ok (h, o1).

(** Lines 213-221 compact(size). *)
Definition compact (h : heap) (o : sv) (s_ : nat) : res (heap * sv) :=
  let s := wr16 s_ in
  do _ <- check (s <=? size o);
  if M <? size o then
    let o1 := mkSv (dat o) s (cap o) in
    if s <=? M then ptr_to_small h o1 else Ok (h, o1)
  else Ok (h, mkSv (dat o) s (cap o)).

(** Lines 223-252 resize(s, v). *)
Definition resize (h : heap) (o : sv) (s : nat) (v : T) : res (heap * sv) :=
  if s <=? M then
    if M <? size o then
      do tmp <- ptr_of (dat o);
      do c <- blk_read h tmp 0 s;
      do d <- vals_write (dat o) 0 c;
      do h1 <- free h tmp;
      Ok (h1, mkSv d (wr16 s) (cap o))
    else if s <=? size o then Ok (h, mkSv (dat o) (wr16 s) (cap o))
    else
      do d <- vals_write (dat o) (size o) (repeat (Some v) (s - size o));
      Ok (h, mkSv d (wr16 s) (cap o))
  else
    do (h1, o1) <- (if size o <=? M then copy_vals_to_ptr h o else Ok (h, o));
    do (h2, o2) <- (if cap o1 <? s then ensure_capacity h1 o1 s else Ok (h1, o1));
    do h3 <- (if size o2 <? s then
                do p <- ptr_of (dat o2);
                blk_write h2 p (size o2) (repeat (Some v) (s - size o2))
              else Ok h2);
    Ok (h3, mkSv (dat o2) (wr16 s) (cap o2)).

(** Lines 254-262 operator[] read / write. *)
Definition get (h : heap) (o : sv) (i : nat) : res cell :=
  do c <- (if size o <=? M then vals_read (dat o) i 1
           else do p <- ptr_of (dat o); blk_read h p i 1);
  match c with [x] => Ok x | _ => UB end.
Definition put (h : heap) (o : sv) (i : nat) (v : T) : res (heap * sv) :=
  if size o <=? M then do d <- vals_write (dat o) i [Some v]; Ok (h, mkSv d (size o) (cap o))
  else do p <- ptr_of (dat o); do h1 <- blk_write h p i [Some v]; Ok (h1, o).

(** Lines 92-103 erase(begin()+i, begin()+j). *)
Definition erase (h : heap) (o : sv) (i j : nat) : res (heap * sv) :=
  if j =? size o then resize h o i tdef
  else
    let nafter := size o - j in
    do (h1, o1) <-
      (if size o <=? M then
         do c <- vals_read (dat o) j nafter;
         do d <- vals_write (dat o) i c; Ok (h, mkSv d (size o) (cap o))
       else
         do p <- ptr_of (dat o);
         do c <- blk_read h p j nafter;
         do h1 <- blk_write h p i c; Ok (h1, o));
    resize h1 o1 (i + nafter) tdef.

(** Lines 264-275 operator==: comparing indeterminate values is [UB]. *)
Fixpoint cells_eq (a b : list cell) : res bool :=
  match a, b with
  | [], [] => Ok true
  | Some x :: a', Some y :: b' => if teqb x y then cells_eq a' b' else Ok false
  | _, _ => UB
  end.
Definition contents (h : heap) (o : sv) : res (list cell) :=
  if size o <=? M then vals_read (dat o) 0 (size o)
  else do p <- ptr_of (dat o); blk_read h p 0 (size o).
Definition sv_eq (h : heap) (o1 o2 : sv) : res bool :=
  if negb (size o1 =? size o2) then Ok false
  else do a <- contents h o1; do b <- contents h o2; cells_eq a b.

(** Client programs over numbered variables; a variable holds an object from its
    construction to its destruction. *)
Inductive cmd :=
| CNew (x : nat)                    (* SmallVector x; *)
| CNewN (x : nat) (n : nat)         (* SmallVector x(n); *)
| CNewRange (x : nat) (l : list T)  (* SmallVector x(b, e); / x(n, v) *)
| CNewCopy (x y : nat)              (* SmallVector x(y); *)
| CAssign (x y : nat)               (* x = y; *)
| CDelete (x : nat)                 (* x goes out of scope *)
| CClear (x : nat)
| CPush (x : nat) (v : T)
| CPop (x : nat)
| CCompact (x n : nat)
| CResize (x n : nat) (v : T)
| CPut (x i : nat) (v : T)          (* x[i] = v *)
| CErase (x i j : nat)              (* x.erase(x.begin()+i, x.begin()+j) *)
| CSwap (x y : nat).                (* x.swap(y): exchanges the bytes, lines 281-290 *)

Record state := mkState { hp : heap; env : nat -> option sv }.
Definition upd {X} (e : nat -> X) (x : nat) (v : X) : nat -> X :=
  fun y => if x =? y then v else e y.
(** Using a variable outside its lifetime, or constructing over a live one, is UB. *)
Definition live (s : state) (x : nat) : res sv :=
  match env s x with Some o => Ok o | None => UB end.
Definition dead (s : state) (x : nat) : res unit :=
  match env s x with Some _ => UB | None => Ok tt end.
Definition store (s : state) (x : nat) (r : res (heap * sv)) : res state :=
  do (h, o) <- r; Ok (mkState h (upd (env s) x (Some o))).

Definition exec (s : state) (c : cmd) : res state :=
  match c with
  | CNew x => do _ <- dead s x; store s x (ctor (hp s))
  | CNewN x n => do _ <- dead s x; store s x (ctor_n (hp s) n)
  | CNewRange x l => do _ <- dead s x; store s x (ctor_range (hp s) l)
  | CNewCopy x y => do _ <- dead s x; do o <- live s y; store s x (ctor_copy (hp s) o)
  | CAssign x y => do o <- live s x; do o' <- live s y; store s x (assign (hp s) o o')
  | CDelete x => do o <- live s x; do h <- dtor (hp s) o; Ok (mkState h (upd (env s) x None))
  | CClear x => do o <- live s x; store s x (clear (hp s) o)
  | CPush x v => do o <- live s x; store s x (push_back (hp s) o (RExt v))
  | CPop x => do o <- live s x; store s x (pop_back (hp s) o)
  | CCompact x n => do o <- live s x; store s x (compact (hp s) o n)
  | CResize x n v => do o <- live s x; store s x (resize (hp s) o n v)
  | CPut x i v => do o <- live s x; store s x (put (hp s) o i v)
  | CErase x i j => do o <- live s x; store s x (erase (hp s) o i j)
  | CSwap x y => do o <- live s x; do o' <- live s y;
                 Ok (mkState (hp s) (upd (upd (env s) x (Some o')) y (Some o)))
  end.
Fixpoint exec_all (s : state) (p : list cmd) : res state :=
  match p with [] => Ok s | c :: p' => do s1 <- exec s c; exec_all s1 p' end.
Definition state0 : state := mkState [] (fun _ => None).

End SV.
Arguments Ok {X}. Arguments Fail {X}. Arguments UB {X}.
