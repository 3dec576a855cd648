(** Specification vocabulary for the string subsequence kernel. *)
From Coq Require Import List Arith Reals.
Import ListNotations.
Local Open Scope nat_scope.

(** The choices of [n] members of a list, in order. *)
Fixpoint choose (n : nat) (l : list nat) : list (list nat) :=
  match n, l with
  | O, _ => [[]]
  | S _, [] => []
  | S m, x :: r => map (cons x) (choose m r) ++ choose n r
  end.
(** The places of the subsequences of between 1 and [N] words of a sentence of [len] words. *)
Definition places (N len : nat) : list (list nat) := flat_map (fun n => choose n (seq 0 len)) (seq 1 N).
(** The words there. *)
Definition words (s : list nat) (I : list nat) : list nat := map (fun i => nth i s 0) I.
(** How many words of the sentence it stretches over. *)
Definition span (I : list nat) : nat := last I 0 + 1 - hd 0 I.
Definition same_words (u v : list nat) : bool := if list_eq_dec Nat.eq_dec u v then true else false.
Definition sum {A} (h : A -> R) (l : list A) : R := fold_right Rplus 0%R (map h l).
(** The kernel: every pair of a subsequence of [s] and an equal subsequence of [t]
    counts, the less the more they stretch. *)
Definition kernel (N : nat) (lambda : R) (s t : list nat) : R :=
  sum (fun I => sum (fun J => if same_words (words s I) (words t J) then lambda ^ (span I + span J) else 0)%R
    (places N (length t))) (places N (length s)).
Definition similarity (N : nat) (lambda : R) (s t : list nat) : R :=
  (kernel N lambda s t / sqrt (kernel N lambda s s * kernel N lambda t t))%R.
