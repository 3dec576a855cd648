(** Arrays of int as lists of Z with checked access, and sequencing of steps that may
    fail.  [None] stands for an access outside an array. *)
From Coq Require Import List ZArith.
Import ListNotations.
Open Scope Z_scope.

Definition bind {A B : Type} (x : option A) (f : A -> option B) : option B := match x with Some a => f a | None => None end.
Declare Scope opt_scope.
Notation "x <- e ;; f" := (bind e (fun x => f)) (at level 61, e at next level, right associativity) : opt_scope.
Notation "' p <- e ;; f" := (bind e (fun x => match x with p => f end)) (at level 61, p pattern, e at next level, right associativity) : opt_scope.

Definition size (a : list Z) : Z := Z.of_nat (length a).
Definition get (a : list Z) (i : Z) : option Z := if i <? 0 then None else nth_error a (Z.to_nat i).
Fixpoint upd (a : list Z) (i : nat) (v : Z) : list Z :=
  match a, i with [], _ => [] | _ :: r, O => v :: r | x :: r, S j => x :: upd r j v end.
Definition put (a : list Z) (i v : Z) : option (list Z) :=
  if orb (i <? 0) (size a <=? i) then None else Some (upd a (Z.to_nat i) v).

(** for (i = from; i < from + k; ++i) f *)
Fixpoint for_up {S : Type} (k : nat) (from : Z) (f : Z -> S -> option S) (s : S) : option S :=
  match k with O => Some s | Datatypes.S k' => bind (f from s) (for_up k' (from + 1) f) end.
