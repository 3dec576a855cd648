(** Model of utils/dict.h: class Dict (lines 13-89).

    [words_] is the vector of words, [d_] the hash map.  The hash map
    (HASH_MAP<std::string, WordID>, line 16) is taken at its specification: a
    partial function from words to ids with [find] (line 50) and
    [operator[]]-assignment (line 55).  WordID is a 32-bit signed int: the
    conversions from size_t in lines 55, 56 and 77 are made explicit by
    [wrap32]. *)
From Coq Require Import String Ascii List ZArith Bool Lia.
Import ListNotations.
Open Scope Z_scope.

(** Conversion of an integer to a 32-bit two's complement int. *)
Definition wrap32 (z : Z) : Z := (z + 2^31) mod 2^32 - 2^31.

Record dict := mkDict { words_ : list string; d_ : string -> option Z }.

(** dict.h:18-21 constructor. *)
Definition dict_init : dict := mkDict [] (fun _ => None).

(** dict.h:18 [b0_]. *)
Definition b0_ : string := "<bad0>"%string.

(** [d_[word] = v] *)
Definition map_set (m : string -> option Z) (k : string) (v : Z) : string -> option Z :=
  fun k' => if string_dec k k' then Some v else m k'.

(** dict.h:23 [max()]: words_.size() returned as int. *)
Definition dict_max (s : dict) : Z := wrap32 (Z.of_nat (length (words_ s))).

(** dict.h:49-60 [Convert(word, frozen)]. *)
Definition convert_word (s : dict) (w : string) (frozen : bool) : Z * dict :=
  match d_ s w with
  | None =>
      if frozen then (0, s)
      else
        let ws := words_ s ++ [w] in
        let id := wrap32 (Z.of_nat (length ws)) in
        (id, mkDict ws (map_set (d_ s) w id))
  | Some i => (i, s)
  end.

(** dict.h:75-79 [Convert(id)].  [None] = failed assertion or out-of-range
    access of [words_]. *)
Definition convert_id (s : dict) (id : Z) : option string :=
  if id =? 0 then Some b0_
  else if id <=? wrap32 (Z.of_nat (length (words_ s))) then
         if id - 1 <? 0 then None
         else nth_error (words_ s) (Z.to_nat (id - 1))
       else None.

(** dict.h:25-27 [is_ws]. *)
Definition is_ws (c : Ascii.ascii) : bool :=
  Ascii.eqb c " "%char || Ascii.eqb c (Ascii.ascii_of_nat 9).

(** dict.h:34-47: the scanning loop of ConvertWhitespaceDelimitedLine.  [last]
    and [cur] are positions; [line.substr(last, len)] is [substring last len].
    [k] is the list of remaining characters [line[cur..]].  The loop yields the
    words passed to Convert, in order. *)
Fixpoint ws_loop (line : string) (k : list Ascii.ascii) (cur last : nat) (state : bool)
  : list string :=
  match k with
  | [] => if state then [substring last (cur - last) line] else []
  | c :: k' =>
      let cur' := S cur in
      if is_ws c then
        if state then substring last (cur' - last - 1) line :: ws_loop line k' cur' last false
        else ws_loop line k' cur' last false
      else
        if state then ws_loop line k' cur' last true
        else ws_loop line k' cur' (cur' - 1) true
  end.

(** dict.h:29-47: the words are converted one after the other. *)
Fixpoint convert_all (s : dict) (ws : list string) : list Z * dict :=
  match ws with
  | [] => ([], s)
  | w :: ws' =>
      let '(i, s1) := convert_word s w false in
      let '(is, s2) := convert_all s1 ws' in
      (i :: is, s2)
  end.

Definition convert_line (s : dict) (line : string) : list Z * dict :=
  convert_all s (ws_loop line (list_ascii_of_string line) 0 0 false).

(** dict.h:65-73 [toString]: phrases are stored under their words joined by
    " ||| ". *)
Fixpoint to_string_rest (ws : list string) : string :=
  match ws with
  | [] => ""%string
  | w :: r => append " ||| " (append w (to_string_rest r))
  end.
Definition to_string (ws : list string) : string :=
  match ws with
  | [] => ""%string
  | w :: r => append w (to_string_rest r)
  end.

(** A client's calls. *)
Inductive dcall :=
| CallConvert (w : string)
| CallFrozen (w : string)
| CallLookup (id : Z)
| CallLine (line : string).

Definition dstep (s : dict) (c : dcall) : dict :=
  match c with
  | CallConvert w => snd (convert_word s w false)
  | CallFrozen w => snd (convert_word s w true)
  | CallLookup _ => s
  | CallLine l => snd (convert_line s l)
  end.

Definition dict_run (s : dict) (h : list dcall) : dict := fold_left dstep h s.
