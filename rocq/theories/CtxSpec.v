(** Templates and what they stand for. *)
From Coq Require Import String Ascii List Arith ZArith Bool DecimalString.
From Verif Require Import RuleFfSpec.
Import ListNotations.
Open Scope string_scope.

(** a letter, the word so many places from here, the label so many places from here *)
Inductive piece := Lit (c : ascii) | X (k : Z) | Y (k : Z).
(** a number in decimal *)
Definition decimal (k : Z) : string := NilEmpty.string_of_int (Z.to_int k).
Fixpoint template (ps : list piece) : string :=
  match ps with
  | [] => ""
  | Lit c :: r => String c (template r)
  | X k :: r => "%x[" ++ decimal k ++ "]" ++ template r
  | Y k :: r => "%y[" ++ decimal k ++ "]" ++ template r
  end.
(** the word at a place of a sentence, with marks before and after it *)
Definition word_at (input : list string) (p : Z) (w : string) : Prop :=
  (p < 0 /\ w = "<s>")%Z \/ (Z.of_nat (length input) <= p /\ 0 <= p /\ w = "</s>")%Z \/ (0 <= p /\ nth_error input (Z.to_nat p) = Some w)%Z.
(** the template filled for place [i] with label [y] *)
Inductive filled (input : list string) (i : nat) (y : string) : list piece -> string -> Prop :=
| filled_nil : filled input i y [] ""
| filled_lit c r s : filled input i y r s -> filled input i y (Lit c :: r) (String c s)
| filled_x k w r s : word_at input (Z.of_nat i + k) w -> filled input i y r s -> filled input i y (X k :: r) (w ++ s)
| filled_y k r s : filled input i y r s -> filled input i y (Y k :: r) (y ++ s).
(** the places asked for *)
Definition words_of (ps : list piece) : list Z := flat_map (fun p => match p with X k => [k] | _ => [] end) ps.
Definition labels_of (ps : list piece) : list Z := flat_map (fun p => match p with Y k => [k] | _ => [] end) ps.
(** letters other than %, places which are not positive or have no digit 0 *)
Definition fine (p : piece) : Prop := match p with Lit c => c <> "%"%char | X k | Y k => (k <= 0)%Z \/ ~ has "0" (decimal k) end.
(** = and ; made _ *)
Inductive escaped : string -> string -> Prop :=
| escaped_nil : escaped "" ""
| escaped_bad c s t : c = "="%char \/ c = ";"%char -> escaped s t -> escaped (String c s) (String "_" t)
| escaped_other c s t : c <> "="%char -> c <> ";"%char -> escaped s t -> escaped (String c s) (String c t).
