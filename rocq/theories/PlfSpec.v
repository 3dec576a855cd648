(** The texts that denote a lattice. *)
From Coq Require Import List ZArith Bool.
From Verif Require Import UtoaProofs Plf.
Import ListNotations.
Open Scope Z_scope.

Definition spaces (s : text) : Prop := Forall (eq 32) s.
(** a word between quotes: a character may be preceded by a backslash; quotes and backslashes
    must be *)
Inductive escaped : text -> text -> Prop :=
| esc_nil : escaped [] []
| esc_plain c w s : c <> 39 -> c <> 92 -> escaped w s -> escaped (c :: w) (c :: s)
| esc_slash c w s : escaped w s -> escaped (c :: w) (92 :: c :: s).
Definition quoted (w t : text) : Prop :=
  w <> [] /\ exists a s b, spaces a /\ spaces b /\ escaped w s /\ t = a ++ [39] ++ s ++ [39] ++ b.

Section Spec.
Variable num : Type.
Variables (num_of : text -> num) (trunc : num -> option Z).
(** a number: a token without space, comma, brace or closing parenthesis *)
Definition token (s : text) : Prop := s <> [] /\ Forall (fun c => ~ In c [32; 41; 44; 123; 125]) s.
Definition number (v : num) (t : text) : Prop :=
  exists a s b, spaces a /\ spaces b /\ token s /\ v = num_of s /\ t = a ++ s ++ b.
(** 'name' : value *)
Definition feature (f : text * num) (t : text) : Prop :=
  exists t1 t2, quoted (fst f) t1 /\ number (snd f) t2 /\ t = t1 ++ [58] ++ t2.
Inductive commas {A} (P : A -> text -> Prop) : list A -> text -> Prop :=
| c_one x t : P x t -> commas P [x] t
| c_more x t xs s : P x t -> commas P xs s -> commas P (x :: xs) (t ++ [44] ++ s).
(** {'a': 1, 'b': 2}, or {'a': 1,} *)
Inductive dictionary : list (text * num) -> text -> Prop :=
| d_empty a : spaces a -> dictionary [] (a ++ [125])
| d_some fs a s : spaces a -> commas feature fs s -> dictionary fs (a ++ s ++ [125])
| d_last fs a s : spaces a -> commas feature fs s -> dictionary fs (a ++ s ++ [44; 125]).
Definition named_costs (vs : list num) : list (text * num) :=
  map (fun iv => (lattice_cost ++ 95 :: decimal (Z.of_nat (fst iv)), snd iv)) (combine (seq 0 (length vs)) vs).
(** what follows the word: numbers, the last of them the link length; or a dictionary and the
    link length *)
Inductive values : list (text * num) -> Z -> text -> Prop :=
| v_dense vs v d t : Z.of_nat (length vs) < 2 ^ 32 -> commas number (vs ++ [v]) t -> trunc v = Some d -> values (named_costs vs) d t
| v_sparse fs v d t b t' : dictionary fs t -> NoDup (map fst fs) -> spaces b -> number v t' -> trunc v = Some d ->
    values fs d ([123] ++ t ++ b ++ [44] ++ t').
(** ('word', …) *)
Definition arc_of (a : larc num) (t : text) : Prop :=
  1 <= l_dist num a /\ exists t1 t2 b c, quoted (l_label num a) t1 /\ spaces b /\
    values (l_features num a) (l_dist num a) t2 /\ spaces c /\ t = [40] ++ t1 ++ [44] ++ b ++ t2 ++ [41] ++ c.
(** the rest of a tuple after the opening parenthesis; the comma between two elements may be
    missing *)
Inductive tuple {A} (P : A -> text -> Prop) : list A -> text -> Prop :=
| t_end : tuple P [] [41]
| t_comma : tuple P [] [44; 41]
| t_item x t xs s : P x t -> tuple P xs s -> tuple P (x :: xs) (t ++ s)
| t_sep x t a xs s : P x t -> spaces a -> tuple P xs s -> tuple P (x :: xs) ([44] ++ a ++ t ++ s).
Definition node_of (arcs : list (larc num)) (t : text) : Prop :=
  exists a s b, spaces a /\ spaces b /\ tuple arc_of arcs s /\ t = [40] ++ a ++ s ++ b.
Definition plf_of (lat : list (list (larc num))) (t : text) : Prop :=
  exists s b, spaces b /\ tuple node_of lat s /\ t = [40] ++ s ++ b.

(** every link ends at a position or at the end, and one does at the end *)
Definition complete (lat : list (list (larc num))) : Prop :=
  (forall i arcs a, nth_error lat i = Some arcs -> In a arcs -> 1 <= l_dist num a /\ Z.of_nat i + l_dist num a <= Z.of_nat (length lat)) /\
  exists i arcs a, nth_error lat i = Some arcs /\ In a arcs /\ Z.of_nat i + l_dist num a = Z.of_nat (length lat).

Variables (zero : num) (show : num -> text).
Definition cost (a : larc num) : num := get_feature num zero (l_features num a) lattice_cost.
(** what the reader finds: the single cost, under another name *)
Definition written (a : larc num) : larc num :=
  {| l_label := l_label num a; l_features := [(lattice_cost ++ [95; 48], num_of (show (cost a)))]; l_dist := l_dist num a |}.
(** words are not empty, links lead forward and their length is a number a float can hold *)
Definition writable (lat : list (list (larc num))) : Prop := forall arcs a, In arcs lat -> In a arcs ->
  l_label num a <> [] /\ 1 <= l_dist num a /\ trunc (num_of (decimal (l_dist num a))) = Some (l_dist num a).
End Spec.
