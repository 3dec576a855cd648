(** Model of [LogVal] (utils/logval.h), numbers stored as a sign and the
    logarithm of the magnitude.

    Simplification: [double] arithmetic is taken over the exact reals extended
    with the IEEE special values, so rounding, overflow and underflow are not
    modelled; infinities and NaN are. *)
From Coq Require Import Reals Bool.
Local Open Scope R_scope.

(** An idealised [double]: exact finite value, infinities, NaN. *)
Inductive fl := Fin (r : R) | PInf | NInf | NaN.

Definition rltb (x y : R) : bool := if Rlt_dec x y then true else false.
Definition reqb (x y : R) : bool := if Req_EM_T x y then true else false.

(** IEEE operations on the extended reals (the parts the class uses). *)
Definition fadd (a b : fl) : fl :=
  match a, b with
  | NaN, _ | _, NaN => NaN
  | Fin x, Fin y => Fin (x + y)
  | PInf, NInf | NInf, PInf => NaN
  | PInf, _ | _, PInf => PInf
  | NInf, _ | _, NInf => NInf
  end.
Definition fopp (a : fl) : fl :=
  match a with Fin x => Fin (- x) | PInf => NInf | NInf => PInf | NaN => NaN end.
Definition fsub (a b : fl) : fl := fadd a (fopp b).
(** Multiplication by a finite factor. *)
Definition fmulr (a : fl) (p : R) : fl :=
  match a with
  | Fin x => Fin (x * p)
  | NaN => NaN
  | PInf => if reqb p 0 then NaN else if rltb p 0 then NInf else PInf
  | NInf => if reqb p 0 then NaN else if rltb p 0 then PInf else NInf
  end.
Definition fexp (a : fl) : fl :=
  match a with Fin x => Fin (exp x) | PInf => PInf | NInf => Fin 0 | NaN => NaN end.
Definition flog (a : fl) : fl :=
  match a with
  | Fin x => if rltb 0 x then Fin (ln x) else if reqb x 0 then NInf else NaN
  | PInf => PInf | NInf => NaN | NaN => NaN
  end.
Definition flog1p (a : fl) : fl := flog (fadd (Fin 1) a).
Definition fltb (a b : fl) : bool :=
  match a, b with
  | NaN, _ | _, NaN => false
  | Fin x, Fin y => rltb x y
  | NInf, NInf => false | NInf, _ => true
  | _, NInf => false
  | PInf, _ => false | _, PInf => true
  end.
Definition feqb (a b : fl) : bool :=
  match a, b with
  | Fin x, Fin y => reqb x y
  | PInf, PInf | NInf, NInf => true
  | _, _ => false
  end.

Definition fgeb (a b : fl) : bool := fltb b a || feqb a b.

(** utils/logval.h:148-149: the two members. *)
Record lv := LV { s_ : bool; v_ : fl }.

(** logval.h:28, 31-33, 42-44 (LOGVAL_LOG0 is minus infinity, semiring.h:10) *)
Definition lv_zero : lv := LV false NInf.
Definition lv_init1 : lv := LV false (Fin 0).
Definition lv_initm1 : lv := LV true (Fin 0).

(** logval.h:29: [LogVal(double x)].  The sign bit of the argument is passed
    separately because a [double] zero may have it set. *)
Definition lv_of (sb : bool) (x : R) : lv :=
  LV sb (if sb then flog (Fin (- x)) else flog (Fin x)).

(** logval.h:42: [One()] goes through the [double] constructor. *)
Definition lv_one : lv := lv_of false 1.

(** logval.h:36: [exp(lnx)]; also 34-35 and [logeq] (45). *)
Definition lv_exp (lnx : fl) : lv := LV false lnx.

(** logval.h:39-40 *)
Definition is_1 (a : lv) : bool := feqb (v_ a) (Fin 0) && negb (s_ a).
Definition is_0 (a : lv) : bool := feqb (v_ a) NInf.

(** logval.h:65-82: [operator+=]; [x] is [*this]. *)
Definition lv_add (x a : lv) : lv :=
  if is_0 a then x
  else if Bool.eqb (s_ a) (s_ x) then
    if fltb (v_ a) (v_ x)
    then LV (s_ x) (fadd (v_ x) (flog1p (fexp (fsub (v_ a) (v_ x)))))
    else LV (s_ x) (fadd (v_ a) (flog1p (fexp (fsub (v_ x) (v_ a)))))
  else
    if fltb (v_ a) (v_ x)
    then LV (s_ x) (fadd (v_ x) (flog1p (fopp (fexp (fsub (v_ a) (v_ x))))))
    else LV (negb (s_ x)) (fadd (v_ a) (flog1p (fopp (fexp (fsub (v_ x) (v_ a)))))).

(** logval.h:84-88, 90-94 *)
Definition lv_mul (x a : lv) : lv := LV (xorb (s_ x) (s_ a)) (fadd (v_ x) (v_ a)).
Definition lv_div (x a : lv) : lv := LV (xorb (s_ x) (s_ a)) (fsub (v_ x) (v_ a)).

(** logval.h:127-130 *)
Definition lv_neg (x : lv) : lv := LV (negb (s_ x)) (v_ x).

(** logval.h:96-100 *)
Definition lv_sub (x a : lv) : lv := lv_add x (lv_neg a).

(** logval.h:108-117, 134-138 (LOGVAL_CHECK_NEG is defined to [false], line 4) *)
Definition lv_pow (x : lv) (p : R) : lv := LV (s_ x) (fmulr (v_ x) p).
(** logval.h:140-142 *)
Definition lv_root (x : lv) (r : R) : lv := lv_pow x (1 / r).
(** logval.h:132 *)
Definition lv_inverse (x : lv) : lv := LV (s_ x) (fopp (v_ x)).
(** logval.h:196-202 *)
Definition lv_abs (x : lv) : lv := if s_ x then LV false (v_ x) else x.

(** logval.h:144-146 *)
Definition as_float (x : lv) : fl := if s_ x then fopp (fexp (v_ x)) else fexp (v_ x).

(** logval.h:187-193: [LOGVAL_CHECK_NEG] is defined (to [false]), so the
    [#ifdef] branch is compiled: [log(-1.0)] is NaN. *)
Definition lv_log (x : lv) : fl := if s_ x then NaN else v_ x.

(** bool [>] on signs: [true > false]. *)
Definition bgt (a b : bool) : bool := a && negb b.

(** logval.h:209-241: the comparison operators. *)
Definition lv_eqb (l r : lv) : bool := feqb (v_ l) (v_ r) && Bool.eqb (s_ l) (s_ r).
Definition lv_ltb (l r : lv) : bool :=
  if Bool.eqb (s_ l) (s_ r) then fltb (v_ l) (v_ r) else bgt (s_ l) (s_ r).
Definition lv_leb (l r : lv) : bool := lv_ltb l r || lv_eqb l r.
Definition lv_gtb (l r : lv) : bool := negb (lv_leb l r).
Definition lv_geb (l r : lv) : bool := negb (lv_ltb l r).

(** logval.h:246-255: [star]. *)
Definition lv_star (x : lv) : lv :=
  if is_0 x then x
  else if fgeb (v_ x) (Fin 0) then LV (s_ x) PInf
  else LV (s_ x) (fopp (flog1p (fopp (as_float x)))).
