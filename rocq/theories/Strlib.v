(** utils/stringlib.h and utils/stringlib.cc: dividing of texts.  Positions in a text are kept as the text read since; std::string::find is
    [String.index] and substr is [String.substring] of the standard library.  [None]: an exception or an abort. *)
From Coq Require Import String Ascii List Arith Bool.
From Verif Require Import Opt.
Import ListNotations.
Open Scope string_scope.
Open Scope nat_scope.
Open Scope opt_scope.

Definition word_if (cur : string) : list string := match cur with EmptyString => [] | _ => [cur] end.
Definition IsWordSep (c : ascii) : bool := Ascii.eqb c " " || Ascii.eqb c "009".
(** stringlib.h 149-166; [cur]: from start to i *)
Fixpoint split_from (cur s : string) : list string :=
  match s with
  | EmptyString => word_if cur
  | String c r => if IsWordSep c then (word_if cur ++ split_from "" r)%list else split_from (cur ++ String c "") r
  end.
Definition SplitOnWhitespace (s : string) : list string := split_from "" s.
(** stringlib.h 100-114: tokens are made from C strings, which end at a letter 0 *)
Fixpoint c_str (s : string) : string := match s with EmptyString => "" | String c r => if Ascii.eqb c "000" then "" else String c (c_str r) end.
Fixpoint tokens_from (delimiter : ascii) (last s : string) : list string :=
  match s with
  | EmptyString => map c_str (word_if last)
  | String c r => if Ascii.eqb c delimiter then (map c_str (word_if last) ++ tokens_from delimiter "" r)%list else tokens_from delimiter (last ++ String c "") r
  end.
Definition Tokenize (s : string) (delimiter : ascii) : list string := tokens_from delimiter "" s.
(** stringlib.h 94-98: erase from the last letter that stays, erase to the first *)
Fixpoint erase_end (s : string) : string :=
  match s with EmptyString => "" | String c r => match erase_end r with EmptyString => if IsWordSep c then "" else String c "" | t => String c t end end.
Fixpoint erase_begin (s : string) : string := match s with EmptyString => "" | String c r => if IsWordSep c then erase_begin r else s end.
Definition Trim (s : string) : string := erase_begin (erase_end s).
(** stringlib.h 277-288 *)
Fixpoint param_of (i : nat) (x : list string) : string := match x with [] => "" | w :: r => (if 1 <? i then " " else "") ++ w ++ param_of (i + 1) r end.
Definition SplitCommandAndParam (s : string) : string * string := match SplitOnWhitespace s with [] => ("", "") | c :: x => (c, param_of 1 x) end.
(** s.substr(pos): an exception beyond the end *)
Definition substr (pos : nat) (s : string) : option string := if pos <=? String.length s then Some (substring pos (String.length s - pos) s) else None.
(** stringlib.cc 12-32; [ref]: what the reference is before.  pos - 1 is the largest number for pos = 0. *)
Definition ParseTranslatorInput (line ref : string) : option (string * string) :=
  hint <- (if prefix "{""rules"":" line then (h <- index 0 "}}" line ;; Some (h + 2)) else Some 0) ;;
  match index hint "|||" line with
  | None => Some (line, ref)
  | Some pos =>
      let input := if pos =? 0 then line else substring 0 (pos - 1) line in
      rline <- substr (pos + 4) line ;;
      Some (input, rline)
  end.
