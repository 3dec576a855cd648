(** Parallel text. *)
From Coq Require Import List Arith.
Import ListNotations.

(** the elements whose number leaves [rank] when divided by [size], counted from [n] *)
Inductive share {A} (rank size : nat) : nat -> list A -> list A -> Prop :=
| share_nil n : share rank size n [] []
| share_take n x l k : n mod size = rank -> share rank size (S n) l k -> share rank size n (x :: l) (x :: k)
| share_skip n x l k : n mod size <> rank -> share rank size (S n) l k -> share rank size n (x :: l) k.
(** a line of a source and a target side *)
Definition line (div : nat) (p : list nat * list nat) : list nat := fst p ++ div :: snd p.
(** no divider on either side *)
Definition clean (div : nat) (p : list nat * list nat) : Prop := ~ In div (fst p) /\ ~ In div (snd p).
(** a set of words *)
Definition set_of (l : list nat) (ss : list (list nat)) : Prop := NoDup l /\ forall x, In x l <-> exists s, In s ss /\ In x s.
