(** Neighbours in rules. *)
From Coq Require Import String Ascii List Arith.
From Verif Require Import RuleFf.
Import ListNotations.
Open Scope string_scope.
Local Open Scope nat_scope.

Fixpoint has (c : ascii) (s : string) : Prop := match s with EmptyString => False | String d r => d = c \/ has c r end.
(** a text which a name shows as it is *)
Definition plain (s : string) : Prop := ~ has "_" s /\ ~ has "=" s /\ ~ has ";" s /\ s <> "</r>".
(** the neighbours in a sequence with a mark at both ends *)
Definition neighbours (ws : list string) : list (string * string) := combine ("<r>" :: ws) (ws ++ ["</r>"])%list.
Definition times (p : string * string) (l : list (string * string)) : nat :=
  length (filter (fun q => String.eqb (fst q) (fst p) && String.eqb (snd q) (snd p))%bool l).
(** the features count the pairs of texts in [l] under the names [tag u _ v], and nothing else *)
Definition counts_pairs (tag : string) (l : list (string * string)) (f : option string -> nat) : Prop :=
  (forall u v, ~ has "_" u -> f (Some (tag ++ u ++ "_" ++ v)) = times (u, v) l) /\
  forall k, f k <> 0 -> exists u v, In (u, v) l /\ k = Some (tag ++ u ++ "_" ++ v).

(** the text for a symbol of the target side of a rule: the word, or the category of the variable on the source side and its number from 1 *)
Definition categories (r : rule) : list string := flat_map (fun s => match s with Cat c => [c] | FWord _ => [] end) (f_ r).
Definition target_text (r : rule) (s : esym) (t : string) : Prop :=
  match s with EWord w => t = w | Var k => k < 1000 /\ exists c, nth_error (categories r) k = Some c /\ t = c ++ show (k + 1) end.
(** symbols which a name of a rule shows so that they can be told apart *)
Definition clear (s : string) : Prop := ~ has "_" s /\ ~ has ":" s /\ ~ has "=" s /\ ~ has ";" s.
Definition clear_word (s : string) : Prop := clear s /\ s <> "" /\ forall t, s <> "N" ++ t.
Definition clear_rule (r : rule) : Prop :=
  (match lhs r with Some l => clear l | None => True end) /\ Forall (fun s => match s with Cat c => clear c | FWord w => clear_word w end) (f_ r)
  /\ Forall (fun s => match s with Var _ => True | EWord w => clear_word w end) (e_ r).
Definition rule_dec : forall a b : rule, {a = b} + {a <> b}.
Proof. repeat decide equality. Defined.
