(** utils/corpus_tools.cc: reading of parallel text, all of it or the share of one of several processes.  [None]: the program stops. *)
From Coq Require Import List Arith Bool.
From Verif Require Import Opt.
Import ListNotations.
Open Scope opt_scope.

Section Div.
(** the word ||| *)
Variable kDIV : nat.
(** 11-29: a line as the words TD::ConvertSentence makes of it *)
Fixpoint until_div (tmp : list nat) : list nat * list nat :=
  match tmp with [] => ([], []) | x :: r => if x =? kDIV then ([], r) else let (a, b) := until_div r in (x :: a, b) end.
Definition ReadLine (tmp : list nat) : list nat * list nat := until_div tmp.

(** what the caller gave: sets of words or null, as lists with the words in the order of insertion *)
Record corpus := { src : list (list nat); src_vocab : option (list nat); trg : option (list (list nat)); trg_vocab : option (list nat) }.
Definition insert (x : nat) (v : option (list nat)) : option (list nat) :=
  match v with Some l => Some (if existsb (Nat.eqb x) l then l else (l ++ [x])%list) | None => None end.
(** d->push_back where d points to the last line *)
Fixpoint push_last (x : nat) (l : list (list nat)) : list (list nat) :=
  match l with [] => [] | [a] => [(a ++ [x])%list] | a :: r => a :: push_last x r end.
(** 63-78: the words of a line; [s]: dividers seen; words go to the target after the first *)
Fixpoint words (skip : bool) (tmp : list nat) (s : nat) (c : corpus) : option (nat * corpus) :=
  match tmp with
  | [] => Some (s, c)
  | x :: r =>
      if x =? kDIV then
        if 1 <? S s then None else
        t <- trg c ;;
        words skip r (S s) {| src := src c; src_vocab := src_vocab c; trg := Some (if skip then t else (t ++ [[]])%list); trg_vocab := trg_vocab c |}
      else
        words skip r s
          (if s =? 0 then {| src := if skip then src c else push_last x (src c); src_vocab := insert x (src_vocab c); trg := trg c; trg_vocab := trg_vocab c |}
           else {| src := src c; src_vocab := src_vocab c; trg := if skip then trg c else option_map (push_last x) (trg c); trg_vocab := insert x (trg_vocab c) |})
  end.
(** 53-83 *)
Fixpoint lines (rank size : nat) (ls : list (list nat)) (lc : nat) (c : corpus) : option corpus :=
  match ls with
  | [] => Some c
  | tmp :: r =>
      let skip := negb (lc mod size =? rank) in
      ' (s, c') <- words skip tmp 0 {| src := if skip then src c else (src c ++ [[]])%list; src_vocab := src_vocab c; trg := trg c; trg_vocab := trg_vocab c |} ;;
      if (1 + match trg c' with None => 0 | Some _ => 1 end =? S s) then lines rank size r (lc + 1) c' else None
  end.
(** 31-52; [want]: which of the pointers for the source words, the target and the target words are not null.  The source is never null:
    it is used without a check. *)
Definition ReadFromFile (rank size : nat) (want_sv want_t want_tv : bool) (ls : list (list nat)) : option corpus :=
  if (0 <? size) && (rank <? size) then
    lines rank size ls 0 {| src := []; src_vocab := if want_sv then Some [] else None; trg := if want_t then Some [] else None; trg_vocab := if want_tv then Some [] else None |}
  else None.
End Div.
