(** What the online optimiser and RProp are meant to compute. *)
From Coq Require Import Reals List Arith.
Import ListNotations.
Local Open Scope R_scope.

(** Shrinking towards 0 by [t]. *)
Definition soft (t x : R) : R := if Rlt_dec t x then x - t else if Rlt_dec x (- t) then x + t else 0.

(** Component [i] of a gradient. *)
Definition component (g : list (nat * R)) (i : nat) : R :=
  fold_right Rplus 0 (map (fun p => if Nat.eqb (fst p) i then snd p else 0) g).

(** Total step in direction [i] of gradients number k, k+1, ... *)
Fixpoint total_step (eta : nat -> R) (k : nat) (gs : list (list (nat * R))) (i : nat) : R :=
  match gs with [] => 0 | g :: gs' => eta k * component g i + total_step eta (S k) gs' i end.

(** Total of n learning rates from number k on. *)
Fixpoint total_rate (eta : nat -> R) (k n : nat) : R :=
  match n with O => 0 | S n' => eta k + total_rate eta (S k) n' end.

(** Two numbers on the same side of 0. *)
Definition same_sign (x y : R) : Prop := (0 < x <-> 0 < y) /\ (x < 0 <-> y < 0).
