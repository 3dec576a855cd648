(** Segments with attributes. *)
From Coq Require Import String Ascii List.
From Verif Require Import RuleFfSpec.
Import ListNotations.
Open Scope string_scope.

Definition name (n : string) : Prop := n <> "" /\ forall c, has c n -> c <> "="%char /\ c <> " "%char /\ c <> "009"%char /\ c <> ">"%char /\ c <> "<"%char /\ c <> """"%char.
Definition value (v : string) : Prop := forall c, has c v -> c <> "="%char /\ c <> ">"%char /\ c <> "<"%char /\ c <> """"%char.
Definition attribute (p : string * string) : Prop := name (fst p) /\ value (snd p).
