(** Words of a text. *)
From Coq Require Import String Ascii List.
From Verif Require Import RuleFfSpec.
Import ListNotations.
Open Scope string_scope.

Definition blank (c : ascii) : Prop := c = " "%char \/ c = "009"%char.
Definition only (sep : ascii -> Prop) (s : string) : Prop := forall c, has c s -> sep c.
Definition free (sep : ascii -> Prop) (s : string) : Prop := forall c, has c s -> ~ sep c.
Definition ends (sep : ascii -> Prop) (s : string) : Prop := s = "" \/ exists c r, s = String c r /\ sep c.
(** a text and its words: they have no separator, and all around them is separators *)
Inductive fields (sep : ascii -> Prop) : string -> list string -> Prop :=
| fields_end b : only sep b -> fields sep b []
| fields_word b w r ts : only sep b -> w <> "" -> free sep w -> ends sep r -> fields sep r ts -> fields sep (b ++ w ++ r) (w :: ts).
Fixpoint join (l : list string) : string := match l with [] => "" | [x] => x | x :: r => x ++ " " ++ join r end.
(** begins and ends with letters other than blanks *)
Definition trimmed (s : string) : Prop := (forall c r, s = String c r -> ~ blank c) /\ (forall r c, s = r ++ String c "" -> ~ blank c).
(** a divider somewhere in the text *)
Definition divided (s : string) : Prop := exists a b, s = a ++ "|||" ++ b.
