(** C108: words of texts and parts of input lines. *)
From Coq Require Import String Ascii List Arith.
From Verif Require Import RuleFfSpec Strlib StrlibSpec StrlibProofs.
Import ListNotations.
Open Scope string_scope.

(** Splitting gives exactly the words of a text: what has no blank and is between blanks or the ends. *)
Theorem C108_words s ts : fields blank s ts <-> SplitOnWhitespace s = ts.
Proof. exact (whitespace_ok s ts). Qed.
Print Assumptions C108_words.
(** Likewise for any other separator and texts without a letter 0. *)
Theorem C108_tokens d s ts : ~ has "000" s -> fields (fun c => c = d) s ts <-> Tokenize s d = ts.
Proof. exact (tokenize_ok d s ts). Qed.
Print Assumptions C108_tokens.
(** A command is the first word of its text, the parameter the other words with single blanks. *)
Theorem C108_command s c x : fields blank s (c :: x) -> SplitCommandAndParam s = (c, join x).
Proof. exact (command_ok s c x). Qed.
Print Assumptions C108_command.
Theorem C108_command_none s : fields blank s [] -> SplitCommandAndParam s = ("", "").
Proof. exact (command_none s). Qed.
Print Assumptions C108_command_none.
(** Trimming takes away the blanks at both ends, and every text has such a form. *)
Theorem C108_trim a t b : only blank a -> only blank b -> trimmed t -> Trim (a ++ t ++ b) = t.
Proof. exact (trim_ok a t b). Qed.
Print Assumptions C108_trim.
Theorem C108_trim_all s : exists a t b, s = a ++ t ++ b /\ only blank a /\ only blank b /\ trimmed t.
Proof. exact (trim_ex s). Qed.
Print Assumptions C108_trim_all.
(** An input line with a reference is divided into source and reference; dividers in the reference stay. *)
Theorem C108_input src ref ref0 : ~ divided src -> ~ prefix "{""rules"":" (src ++ " ||| " ++ ref) = true -> ParseTranslatorInput (src ++ " ||| " ++ ref) ref0 = Some (src, ref).
Proof. exact (input_ok src ref ref0). Qed.
Print Assumptions C108_input.
(** Dividers in the rules of a line of rules do not count. *)
Theorem C108_input_rules j r ref ref0 : ~ has "}" j -> ~ divided r -> ParseTranslatorInput (("{""rules"":" ++ j ++ "}}" ++ r) ++ " ||| " ++ ref) ref0 = Some ("{""rules"":" ++ j ++ "}}" ++ r, ref).
Proof. exact (input_rules j r ref ref0). Qed.
Print Assumptions C108_input_rules.
(** A line without divider is the source, and the reference stays what it was. *)
Theorem C108_input_only l ref0 : ~ divided l -> ~ prefix "{""rules"":" l = true -> ParseTranslatorInput l ref0 = Some (l, ref0).
Proof. exact (input_only l ref0). Qed.
Print Assumptions C108_input_only.

(** Finding: a line which ends with the divider stops the program (stringlib.cc 26, substr beyond the end of the line). *)
Theorem C108_no_reference_refuted : exists src, ~ has "|" src /\ ParseTranslatorInput (src ++ " |||") "" = None.
Proof. exists "foo bar". split; [cbn; intuition discriminate|reflexivity]. Qed.
Print Assumptions C108_no_reference_refuted.
(** Finding: with nothing before the divider the source is the whole line, divider and reference too (stringlib.cc 25, pos - 1 is the largest
    number). *)
Theorem C108_no_source_refuted : exists ref, ref <> "" /\ ParseTranslatorInput ("||| " ++ ref) "" = Some ("||| " ++ ref, ref).
Proof. exists "foo bar". split; [discriminate|reflexivity]. Qed.
Print Assumptions C108_no_source_refuted.
(** Finding: the letters on both sides of the divider are taken to be blanks and are lost if they are not (stringlib.cc 25-26). *)
Theorem C108_no_blank_refuted : exists src ref, ~ has "|" src /\ ParseTranslatorInput (src ++ "|||" ++ ref) "" = Some ("fo", "ar") /\ src = "foo" /\ ref = "bar".
Proof. exists "foo", "bar". split; [cbn; intuition discriminate|]. repeat split; reflexivity. Qed.
Print Assumptions C108_no_blank_refuted.
(** Finding: tokens are cut off at a letter 0 (stringlib.h 108, 113). *)
Theorem C108_zero_refuted : exists s ts, fields (fun c => c = " "%char) s ts /\ Tokenize s " " <> ts.
Proof.
  exists (String "a" (String "000" (String "b" ""))), [String "a" (String "000" (String "b" ""))]. split; [|vm_compute; discriminate].
  apply (fields_word _ "" (String "a" (String "000" (String "b" ""))) "" []); [intros c []|discriminate|intros c C E; cbn in C; subst c; intuition discriminate|now left|constructor; intros c []].
Qed.
Print Assumptions C108_zero_refuted.

Example C108_ex_words : SplitOnWhitespace "  the cat	sat " = ["the"; "cat"; "sat"] /\ Tokenize ",a,,b c," "," = ["a"; "b c"] /\ SplitCommandAndParam " LM  a.lm   -o 3 " = ("LM", "a.lm -o 3") /\ Trim "  a b	" = "a b" /\ Trim "   " = "".
Proof. repeat split; reflexivity. Qed.
Example C108_ex_fields : fields blank " a bc" ["a"; "bc"].
Proof. apply C108_words. reflexivity. Qed.
Example C108_ex_input : ParseTranslatorInput "foo bar ||| x ||| y" "old" = Some ("foo bar", "x ||| y") /\ ParseTranslatorInput "foo || bar" "old" = Some ("foo || bar", "old") /\
  ParseTranslatorInput "{""rules"":[""a ||| b""}} ||| r" "" = Some ("{""rules"":[""a ||| b""}}", "r") /\ ParseTranslatorInput "{""rules"":[" "" = None.
Proof. repeat split; reflexivity. Qed.
Example C108_ex_trimmed : trimmed "a b" /\ only blank " ".
Proof.
  split; [|intros c [<- |[]]; now left]. split; [intros c r E; injection E as <- _; intros [H|H]; discriminate H|].
  intros r c E. destruct r as [|x [|y [|z r]]]; cbn in E; try discriminate E; [|destruct r; discriminate E]. injection E as _ _ <-. intros [H|H]; discriminate H.
Qed.
