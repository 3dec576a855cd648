(** Suffixes of a text, their lexicographic order, occurrences of phrases and longest
    common prefixes: independent of the code. *)
From Coq Require Import List ZArith.
Import ListNotations.
Open Scope Z_scope.

Definition suffix (data : list Z) (p : Z) : list Z := skipn (Z.to_nat p) data.
(** Lexicographic order; a proper prefix is smaller. *)
Inductive lex : list Z -> list Z -> Prop :=
| lex_nil y r : lex [] (y :: r)
| lex_lt x l y r : x < y -> lex (x :: l) (y :: r)
| lex_eq x l r : lex l r -> lex (x :: l) (x :: r).
(** 0, 1, ..., |data|: the start positions of all suffixes, the empty one included. *)
Definition positions (data : list Z) : list Z := map Z.of_nat (seq 0 (S (length data))).

Definition starts (w l : list Z) : Prop := exists r, l = w ++ r.
(** The ranks low .. high-1 are exactly those of the suffixes that start with w. *)
Definition range_of (data sa : list Z) (w : list Z) (low high : Z) : Prop :=
  0 <= low <= high /\ high <= Z.of_nat (length sa) /\
  forall i p, nth_error sa i = Some p -> (low <= Z.of_nat i < high <-> starts w (suffix data p)).

Fixpoint common (x y : list Z) : Z :=
  match x, y with a :: x', b :: y' => if a =? b then 1 + common x' y' else 0 | _, _ => 0 end.
