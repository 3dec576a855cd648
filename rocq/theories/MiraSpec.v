(** What a step of MIRA is meant to do. *)
From Coq Require Import Reals List.
Import ListNotations.
Local Open Scope R_scope.

Fixpoint inner (a b : list R) : R :=
  match a, b with x :: a', y :: b' => x * y + inner a' b' | _, _ => 0 end.
Fixpoint dist2 (a b : list R) : R :=
  match a, b with x :: a', y :: b' => (x - y) * (x - y) + dist2 a' b' | _, _ => 0 end.

(** By how much the weights v fail to prefer the good hypothesis by the margin. *)
Definition hinge (margin : R) (v good bad : list R) : R := Rmax 0 (margin - (inner good v - inner bad v)).

(** What a step minimises: the change of the weights, and C times the failure. *)
Definition objective (C margin : R) (w good bad v : list R) : R := dist2 v w / 2 + C * hinge margin v good bad.

(** Value k of the average of vectors. *)
Definition mean (l : list (list R)) (k : nat) : R := fold_right Rplus 0 (map (fun v => nth k v 0) l) / INR (length l).
