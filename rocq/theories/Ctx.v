(** decoder/ff_context.cc: features of a label made from a template, with macros for the words of the input around it.  [None]: the program
    stops.  Left out: reading of the options before the template; locations are integers without bounds. *)
From Coq Require Import String Ascii List Arith ZArith Bool Decimal DecimalString.
From Verif Require Import Opt RuleFf.
Import ListNotations.
Open Scope string_scope.
Open Scope opt_scope.

(** a number written by ostream << and read by atoi *)
Definition show_int (k : Z) : string := NilEmpty.string_of_int (Z.to_int k).
Definition atoi (s : string) : Z := match NilEmpty.int_of_string s with Some d => Z.of_int d | None => 0%Z end.
(** 21: %x or %y, then in brackets a number: - and digits not beginning with 0, or 0, or digits from 1 to 9 only *)
Definition digit (c : ascii) : bool := let n := nat_of_ascii c in (48 <=? n)%nat && (n <=? 57)%nat.
Definition digit19 (c : ascii) : bool := let n := nat_of_ascii c in (49 <=? n)%nat && (n <=? 57)%nat.
Fixpoint all_chars (p : ascii -> bool) (s : string) : bool := match s with EmptyString => true | String c r => p c && all_chars p r end.
Definition is_number (s : string) : bool :=
  match s with
  | EmptyString => false
  | String c r =>
      if Ascii.eqb c "-" then match r with EmptyString => false | String d r' => digit19 d && all_chars digit r' end
      else String.eqb s "0" || (digit19 c && all_chars digit19 r)
  end.
(** the text before the first closing bracket: the number has none *)
Fixpoint before_bracket (s : string) : option string :=
  match s with EmptyString => None | String c r => if Ascii.eqb c "]" then Some "" else t <- before_bracket r ;; Some (String c t) end.
Inductive kind := Token | Label.
(** a match at the beginning of the text *)
Definition macro_at (s : string) : option (kind * Z) :=
  match s with
  | String p (String k (String b r)) =>
      if Ascii.eqb p "%" && Ascii.eqb b "[" then
        t <- before_bracket r ;;
        if is_number t then (if Ascii.eqb k "x" then Some (Token, atoi t) else if Ascii.eqb k "y" then Some (Label, atoi t) else None) else None
      else None
  | _ => None
  end.
(** 107-135: all matches, one after the other; a macro has no % after its first letter *)
Fixpoint macros (s : string) : list (kind * Z) :=
  (match s with EmptyString => [] | String _ r => (match macro_at s with Some m => [m] | None => [] end) ++ macros r end)%list.
Definition tokens (ms : list (kind * Z)) : list Z := flat_map (fun m => match m with (Token, k) => [k] | _ => [] end) ms.
Definition labels (ms : list (kind * Z)) : list Z := flat_map (fun m => match m with (Label, k) => [k] | _ => [] end) ms.
(** 113-160: the locations of the tokens *)
Definition ParseTemplate (template : string) : option (list Z) :=
  let ms := macros template in
  if forallb (Z.eqb 0) (labels ms) then match labels ms, tokens ms with [], _ | _, [] => None | _, ts => Some ts end else None.
(** std::string::find and replace: the first place is replaced *)
Fixpoint drop (n : nat) (s : string) : string := match n, s with S k, String _ r => drop k r | _, _ => s end.
Fixpoint replace_first (m t s : string) : option string :=
  if prefix m s then Some (t ++ drop (String.length m) s)
  else match s with EmptyString => None | String c r => r' <- replace_first m t r ;; Some (String c r') end.
(** 34-53 *)
Definition ReplaceMacroWithString (instance : string) (k : kind) (loc : Z) (actual : string) : option string :=
  replace_first ((match k with Token => "%x[" | Label => "%y[" end) ++ show_int loc ++ "]") actual instance.
(** 212-217; [input]: the words of the sentence *)
Definition token_at (input : list string) (i : nat) (loc : Z) : string :=
  let p := (Z.of_nat i + loc)%Z in
  if (0 <=? p)%Z && (p <? Z.of_nat (length input))%Z then nth (Z.to_nat p) input "" else if (loc <? 0)%Z then "<s>" else "</s>".
Fixpoint replace_tokens (input : list string) (i : nat) (locs : list Z) (instance : string) : option string :=
  match locs with [] => Some instance | l :: r => s <- ReplaceMacroWithString instance Token l (token_at input i l) ;; replace_tokens input i r s end.
(** 177-231: a rule with the words of its target side and its number of variables, from word i to word j; the feature set, if any *)
Definition Context (template : string) (input : list string) (arity : nat) (e : list string) (i j : nat) : option (option string) :=
  locs <- ParseTemplate template ;;
  match arity, e with
  | O, [y] =>
      if negb (j - i =? 1)%nat then None else
      s <- replace_tokens input i locs template ;;
      s' <- ReplaceMacroWithString s Label 0 y ;;
      Some (Some (Escape s'))
  | _, _ => Some None
  end.
