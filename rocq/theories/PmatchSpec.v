(** Source trees and their constituents. *)
From Coq Require Import String Ascii List Arith Bool.
From Verif Require Import RuleFfSpec.
Import ListNotations.
Open Scope string_scope.

(** a category, the constituents in it, and the words after them *)
Inductive tree := T (cat : string) (subs : list tree) (ws : list string).
Fixpoint join (l : list string) : string := match l with [] => "" | [x] => x | x :: r => x ++ " " ++ join r end.
Fixpoint show (t : tree) : string := let (cat, subs, ws) := t in "(" ++ cat ++ " " ++ join (map show subs ++ ws)%list ++ ")".
(** number of words *)
Fixpoint width (t : tree) : nat := let (_, subs, ws) := t in list_sum (map width subs) + length ws.
Definition cat_of (t : tree) : string := let (cat, _, _) := t in cat.
(** the first word of every constituent of a list *)
Fixpoint starts (i : nat) (l : list tree) : list (nat * tree) := match l with [] => [] | t :: r => (i, t) :: starts (i + width t) r end.
(** [sub i t a u]: in the tree t, which begins at word i, there is the constituent u, which begins at word a *)
Inductive sub (i : nat) (t : tree) : nat -> tree -> Prop :=
| sub_here : sub i t i t
| sub_in a cat subs ws b u c v : t = T cat subs ws -> a = i -> In (b, u) (starts a subs) -> sub b u c v -> sub i t c v.
(** names that can be read back *)
Definition word_name (w : string) : Prop := w <> "" /\ ~ has " " w /\ ~ has "(" w /\ ~ has ")" w /\ ~ has "009" w.
Definition cat_name (c : string) : Prop := c <> "" /\ c <> "XX" /\ ~ has " " c.
Inductive good : tree -> Prop :=
  good_T cat subs ws : cat_name cat -> Forall word_name ws -> (subs <> [] \/ ws <> []) -> (forall t, In t subs -> good t) -> good (T cat subs ws).
(** the words from a to b are a constituent *)
Definition constituent (t : tree) (a b : nat) : Prop := exists u, sub 0 t a u /\ b = a + width u.
(** the label of a span: that of the outermost constituent with it *)
Definition outermost (t : tree) (a b : nat) (l : string) : Prop :=
  exists u, sub 0 t a u /\ b = a + width u /\ cat_of u = l /\ forall c v, sub 0 t c v -> c = a -> c + width v = b -> sub a u c v.
(** a span which becomes a constituent by [k] more words or by [k] fewer words *)
Definition changed (cons : nat -> nat -> Prop) (i j k : nat) : Prop :=
  exists l r, l + r = k /\ ((l <= i /\ cons (i - l) (j + r)) \/ (r <= j /\ cons (i + l) (j - r))).
