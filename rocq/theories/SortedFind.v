(** Model of klm/util/sorted_uniform.hh.  Keys are unsigned integers ([N]);
    iterators are positions ([Z]) in an array, so that an iterator may point one
    before the first element; an access outside the array, a division by zero
    or the conversion of a NaN is [UB]. *)
From Coq Require Import List ZArith NArith Bool.
Import ListNotations.
Open Scope Z_scope.

Inductive out (A : Type) := Ret (a : A) | OutOfFuel | UB.
Arguments Ret {A} _. Arguments OutOfFuel {A}. Arguments UB {A}.

Section S.
Variable acc : Z -> option N.  (** The accessor: [None] outside the array. *)

(** sorted_uniform.hh:40-58 BinaryFind *)
Fixpoint binary_loop (fuel : nat) (b e : Z) (key : N) : out (option Z) :=
  match fuel with
  | O => OutOfFuel
  | S f =>
    if e >? b then
      let pivot := b + (e - b) / 2 in
      match acc pivot with
      | None => UB
      | Some mid =>
        if (mid <? key)%N then binary_loop f (pivot + 1) e key
        else if (key <? mid)%N then binary_loop f b pivot key
        else Ret (Some pivot)
      end
    else Ret None
  end.
Definition BinaryFind (b e : Z) (key : N) : out (option Z) :=
  binary_loop (S (Z.to_nat (e - b))) b e key.

(** A pivot function: [Calc off range width]. *)
Definition calc := N -> N -> Z -> option Z.

(** sorted_uniform.hh:65-85 BoundedSortedUniformFind *)
Fixpoint bounded_loop (Calc : calc) (fuel : nat) (before_it : Z) (before_v : N) (after_it : Z) (after_v : N)
    (key : N) : out (option Z) :=
  match fuel with
  | O => OutOfFuel
  | S f =>
    if after_it - before_it >? 1 then
      match Calc (key - before_v)%N (after_v - before_v)%N (after_it - before_it - 1) with
      | None => UB
      | Some c =>
        let pivot := before_it + (1 + c) in
        match acc pivot with
        | None => UB
        | Some mid =>
          if (mid <? key)%N then bounded_loop Calc f pivot mid after_it after_v key
          else if (key <? mid)%N then bounded_loop Calc f before_it before_v pivot mid key
          else Ret (Some pivot)
        end
      end
    else Ret None
  end.
Definition BoundedSortedUniformFind (Calc : calc) (before_it : Z) (before_v : N) (after_it : Z) (after_v : N)
    (key : N) : out (option Z) :=
  bounded_loop Calc (S (Z.to_nat (after_it - before_it))) before_it before_v after_it after_v key.

(** sorted_uniform.hh:87-102 SortedUniformFind *)
Definition SortedUniformFind (Calc : calc) (b e : Z) (key : N) : out (option Z) :=
  if b =? e then Ret None
  else match acc b with
  | None => UB
  | Some below =>
    if (key <=? below)%N then (if (key =? below)%N then Ret (Some b) else Ret None)
    else
      let e' := e - 1 in
      match acc e' with
      | None => UB
      | Some above =>
        if (above <=? key)%N then (if (key =? above)%N then Ret (Some e') else Ret None)
        else BoundedSortedUniformFind Calc b below e' above key
      end
  end.
End S.

(** sorted_uniform.hh:18-24 Pivot64.  [fl] is whatever the floating point
    expression converts to; 0/0 is a NaN, whose conversion is undefined. *)
Definition Pivot64 (fl : N -> N -> Z -> Z) : calc := fun off range width =>
  if (range =? 0)%N then None
  else let ret := Z.max 0 (fl off range width) in
       Some (if ret <? width then ret else width - 1).

(** sorted_uniform.hh:27-31 Pivot32, with 64-bit wrap-around *)
Definition Pivot32 : calc := fun off range width =>
  let d := ((range + 1) mod 2 ^ 64)%N in
  if (d =? 0)%N then None
  else Some (Z.of_N (((off * Z.to_N width) mod 2 ^ 64) / d)).

(** The accessor of an array. *)
Definition arr (l : list N) (i : Z) : option N := if i <? 0 then None else nth_error l (Z.to_nat i).
