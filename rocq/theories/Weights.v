(** Model of the weights files (utils/weights.cc) and of the escaping of feature names
    (utils/fdict.cc).
    Simplified: a character is a number; a file is the list of its characters; how the
    standard library prints and reads a number is left open (print, strtod); strings hold no
    NUL; only the text format: the reader of the other one writes sizeof(size_t) bytes into an
    int (weights.cc:77-78), which is undefined, and so is None here. *)
From Coq Require Import List Arith Bool.
From Verif Require Import CandSet.
Import ListNotations.

(** * Escaping (fdict.cc) *)
Definition PLUS : nat := 43.
Definition PERCENT : nat := 37.
Definition QUESTION : nat := 63.
(** fdict.cc:98: "=:;,_| %" *)
Definition special : text := [61; 58; 59; 44; 95; 124; 32; 37].
Definition is_special (c : nat) : bool := existsb (Nat.eqb c) special.
(** fdict.cc:87 digits *)
Definition digit (k : nat) : nat := nth k [48; 49; 50; 51; 52; 53; 54; 55; 56; 57; 65; 66; 67; 68; 69; 70] 0.

(** fdict.cc:92-107 UrlEncode: len is never changed, so the loop ends with the string *)
Fixpoint UrlEncode (s : text) : text :=
  match s with
  | [] => []
  | c :: s' =>
    if c =? SPACE then PLUS :: UrlEncode s'
    else if is_special c then PERCENT :: digit ((c / 16) mod 16) :: digit (c mod 16) :: UrlEncode s'
    else c :: UrlEncode s'
  end.
(** fdict.cc:132: the size of the buffer *)
Definition encode_room (s : text) : nat := length s * 3 + 3.
(** fdict.cc:131-147 UrlEncodeString, FD::Escape *)
Definition Escape (s : text) : text := UrlEncode s.

(** fdict.cc:33-45 *)
Definition hex (c : nat) : option nat :=
  if (48 <=? c) && (c <=? 57) then Some (c - 48)
  else if (65 <=? c) && (c <=? 70) then Some (c - 65 + 10)
  else if (97 <=? c) && (c <=? 102) then Some (c - 97 + 10)
  else None.
(** fdict.cc:29-50 HexPairValue; None: -1 *)
Definition HexPairValue (a b : nat) : option nat :=
  match hex a, hex b with Some x, Some y => Some (x * 16 + y) | _, _ => None end.
(** fdict.cc:52-84 UrlDecode *)
Fixpoint UrlDecode (s : text) : text :=
  match s with
  | [] => []
  | c :: s' =>
    if c =? PLUS then SPACE :: UrlDecode s'
    else if c =? PERCENT then
      match s' with
      | a :: b :: s'' =>
        match HexPairValue a b with
        | Some v => v :: UrlDecode s''
        | None => QUESTION :: UrlDecode s'
        end
      | _ => QUESTION :: UrlDecode s'
      end
    else c :: UrlDecode s'
  end.
(** std::string(buf): up to the first NUL *)
Fixpoint c_str (s : text) : text :=
  match s with [] => [] | c :: s' => if c =? 0 then [] else c :: c_str s' end.
(** fdict.cc:112-129 UrlDecodeString, and the size of its buffer *)
Definition UrlDecodeString (s : text) : text := c_str (UrlDecode s).
Definition decode_room (s : text) : nat := length s + 2 * count_occ Nat.eq_dec s PERCENT + 10.

(** * Names of features (fdict.h:47-52, dict.h:49-60) *)
Notation dict := (list text).
Definition text_eqb (a b : text) : bool := if list_eq_dec Nat.eq_dec a b then true else false.
Fixpoint find_name (d : dict) (s : text) (k : nat) : option nat :=
  match d with [] => None | t :: d' => if text_eqb t s then Some k else find_name d' s (S k) end.
(** FD::Convert: the id, from 1; 0: not known, and the dictionary is frozen *)
Definition Convert (frozen : bool) (d : dict) (s : text) : dict * nat :=
  match find_name d s 1 with
  | Some k => (d, k)
  | None => if frozen then (d, 0) else (d ++ [s], S (length d))
  end.

(** * Files *)
Definition NL : nat := 10.
Definition HASH : nat := 35.
(** "_PHWf" *)
Definition MAGIC : text := [95; 80; 72; 87; 102].

(** getline: the lines (what follows the last newline too) *)
Fixpoint lines (s : text) : list text :=
  match s with
  | [] => [[]]
  | c :: s' => if c =? NL then [] :: lines s'
               else match lines s' with l :: r => (c :: l) :: r | [] => [[c]] end
  end.

Section Weights.
Variable V : Type.
Variable zero : V.
Variable isz : V -> bool.                (* val == 0.0 *)
Variable isnan : V -> bool.
Variable print : V -> text.              (* o << val, precision 17 *)
Variable strtod : text -> V.

(** weights.cc:108, 168 *)
Definition get (w : list V) (i : nat) : V := if i <? length w then nth i w zero else zero.
(** weights.cc:61-63: resize and set *)
Fixpoint set (w : list V) (i : nat) (v : V) : list V :=
  match i, w with
  | 0, [] => [v]
  | 0, _ :: w' => v :: w'
  | S i', [] => zero :: set [] i' v
  | S i', x :: w' => x :: set w' i' v
  end.

(** weights.cc:107-111: from feature i *)
Fixpoint write_features (d : dict) (i : nat) (w : list V) (hide : bool) : text :=
  match d with
  | [] => []
  | name :: d' =>
    let val := get w i in
    (if hide && isz val then [] else name ++ SPACE :: print val ++ [NL]) ++ write_features d' (S i) w hide
  end.
(** weights.cc:94-111 WriteToFile *)
Definition WriteToFile (d : dict) (w : list V) (hide : bool) (extra : option text) : text :=
  match extra with Some e => HASH :: SPACE :: e ++ [NL] | None => [] end ++ write_features d 1 w hide.

Definition is_sep (c : nat) : bool := (c =? EQUALS) || (c =? TAB).
(** weights.cc:47-48, without the first character: the last separator becomes a space *)
Fixpoint blank_last (s : text) : text * bool :=
  match s with
  | [] => ([], false)
  | c :: s' =>
    let (t, found) := blank_last s' in
    if found then (c :: t, true)
    else if is_sep c then (SPACE :: t, true) else (c :: t, false)
  end.
(** weights.cc:51-53 *)
Fixpoint before_space (s : text) : text :=
  match s with [] => [] | c :: s' => if c =? SPACE then [] else c :: before_space s' end.
Fixpoint from_space (s : text) : text :=
  match s with [] => [] | c :: s' => if c =? SPACE then s else from_space s' end.
(** weights.cc:55 *)
Fixpoint skip_spaces (s : text) : text :=
  match s with [] => [] | c :: s' => if c =? SPACE then skip_spaces s' else s end.

(** weights.cc:40-64: one line; start is 0 since the line begins with no space *)
Definition read_line (frozen : bool) (buf : text) (d : dict) (w : list V) : option (dict * list V) :=
  match buf with
  | [] => Some (d, w)
  | c :: s =>
    if c =? HASH then Some (d, w)
    else if c =? SPACE then None
    else
      let buf' := c :: fst (blank_last s) in
      let (d', fid) := Convert frozen d (before_space buf') in
      let val := strtod (skip_spaces (from_space buf')) in
      if isnan val then None else Some (d', set w fid val)
  end.
Fixpoint read_lines (frozen : bool) (l : list text) (d : dict) (w : list V) : option (dict * list V) :=
  match l with
  | [] => Some (d, w)
  | buf :: l' => match read_line frozen buf d w with Some (d', w') => read_lines frozen l' d' w' | None => None end
  end.
(** weights.cc:12-73 InitFromFile; None: the program is aborted, or (for the binary format)
    undefined *)
Definition InitFromFile (frozen : bool) (file : text) (d : dict) (w : list V) : option (dict * list V) :=
  if length file <? 5 then None
  else if text_eqb (firstn 5 file) MAGIC then None
  else read_lines frozen (lines file) d w.

(** weights.cc:166-173 *)
Fixpoint string_features (d : dict) (i : nat) (w : list V) (hide : bool) : text :=
  match d with
  | [] => []
  | name :: d' =>
    let val := get w i in
    (if hide && isz val then [] else SPACE :: name ++ EQUALS :: print val) ++ string_features d' (S i) w hide
  end.
(** weights.cc:162-175 GetString; None: substr(1) of the empty string throws *)
Definition GetString (d : dict) (w : list V) (hide : bool) : option text :=
  match string_features d 1 w hide with [] => None | _ :: s => Some s end.

(** find('='), and the two substr of weights.cc:181-183 (without '=': the whole token twice) *)
Fixpoint before_equals (s : text) : text :=
  match s with [] => [] | c :: s' => if c =? EQUALS then [] else c :: before_equals s' end.
Fixpoint after_equals (s : text) : option text :=
  match s with [] => None | c :: s' => if c =? EQUALS then Some s' else after_equals s' end.
(** w[fid] = v; None: outside of the vector *)
Definition assign (w : list V) (i : nat) (v : V) : option (list V) := if i <? length w then Some (set w i v) else None.
(** weights.cc:180-184 *)
Fixpoint update_tokens (frozen : bool) (l : list text) (d : dict) (w : list V) : option (dict * list V) :=
  match l with
  | [] => Some (d, w)
  | t :: l' =>
    let (d', fid) := Convert frozen d (before_equals t) in
    match assign w fid (strtod (match after_equals t with Some v => v | None => t end)) with
    | Some w' => update_tokens frozen l' d' w'
    | None => None
    end
  end.
(** weights.cc:177-185 UpdateFromString; SplitOnWhitespace (stringlib.h:149-165) gives the
    words of VisitTokens *)
Definition UpdateFromString (frozen : bool) (s : text) (d : dict) (w : list V) : option (dict * list V) :=
  update_tokens frozen (tokens s) d w.
(** weights.cc:121-127 InitSparseVector: the entries set *)
Fixpoint sparse_from (i : nat) (w : list V) : list (nat * V) :=
  match w with [] => [] | v :: w' => (if isz v then [] else [(i, v)]) ++ sparse_from (S i) w' end.
Definition InitSparseVector (w : list V) : list (nat * V) := match w with [] => [] | _ :: w' => sparse_from 1 w' end.
End Weights.
