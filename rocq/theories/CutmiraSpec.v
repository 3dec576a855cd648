(** What cutting-plane MIRA optimises for one sentence: the constraints 0, ..., k-1 have
    features f i and losses l i, the oracle has features o. *)
From Coq Require Import Reals List Arith.
From Verif Require Import MiraSpec.
Import ListNotations.
Local Open Scope R_scope.

Definition sum (k : nat) (f : nat -> R) : R := fold_right Rplus 0 (map f (seq 0 k)).
Definition largest (k : nat) (f : nat -> R) : R := fold_right Rmax (f 0%nat) (map f (seq 0 k)).

(** Violation of constraint i by the weights v. *)
Definition violation (o : list R) (f : nat -> list R) (l : nat -> R) (v : list R) (i : nat) : R :=
  l i - (inner o v - inner (f i) v).

(** The objective: the change of the weights and C times the largest violation. *)
Definition primal (C : R) (k : nat) (w0 o : list R) (f : nat -> list R) (l : nat -> R) (v : list R) : R :=
  dist2 v w0 / 2 + C * largest k (violation o f l v).
(** A lower bound of it, for multipliers alpha, at the weights v. *)
Definition lagrangian (C : R) (k : nat) (w0 o : list R) (f : nat -> list R) (l : nat -> R) (alpha : nat -> R) (v : list R) : R :=
  dist2 v w0 / 2 + C * sum k (fun i => alpha i * violation o f l v i).

Definition simplex (k : nat) (alpha : nat -> R) : Prop := (forall i, (i < k)%nat -> 0 <= alpha i) /\ sum k alpha = 1.

(** The weights of the multipliers alpha. *)
Definition weights_of (C : R) (k : nat) (w0 o : list R) (f : nat -> list R) (alpha : nat -> R) (w : list R) : Prop :=
  length w = length w0 /\
  forall j, nth j w 0 = nth j w0 0 + C * sum k (fun i => alpha i * (nth j o 0 - nth j (f i) 0)).
