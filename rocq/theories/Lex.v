(** extractor/data_array.cc, translation_table.cc, features/max_lex_*.cc: lexical translation probabilities of the extractor.
    A line is the list of its words (the splitting at white space is left out), an alignment the list of its links; hash maps
    are association lists.  [None]: an access out of bounds, or [-1] where the code returns an id.  Numbers have no limit. *)
From Coq Require Import String List Arith Bool Reals.
From Verif Require Import Opt.
Import ListNotations.
Open Scope opt_scope.
Local Open Scope nat_scope.

Section Map.
Context {K V : Type}.
Variable eqb : K -> K -> bool.
Fixpoint lookup (m : list (K * V)) (k : K) : option V :=
  match m with [] => None | (k', v) :: r => if eqb k' k then Some v else lookup r k end.
End Map.
(** ++m[k] *)
Fixpoint incr {K} (eqb : K -> K -> bool) (m : list (K * nat)) (k : K) : list (K * nat) :=
  match m with [] => [(k, 1)] | (k', v) :: r => if eqb k' k then (k', S v) :: r else (k', v) :: incr eqb r k end.
Definition pair_eqb (a b : nat * nat) : bool := (fst a =? fst b) && (snd a =? snd b).

(** ** DataArray *)
Definition NULL_WORD := 0.
Definition END_OF_LINE := 1.
Definition NULL_WORD_STR : string := "__NULL__".
Definition END_OF_LINE_STR : string := "__END_OF_LINE__".
Record darray := { word2id : list (string * nat); id2word : list string; data : list nat; sentence_start : list nat }.
(** data_array.cc 52-57 *)
Definition InitializeDataArray : darray :=
  {| word2id := [(NULL_WORD_STR, NULL_WORD); (END_OF_LINE_STR, END_OF_LINE)]; id2word := [NULL_WORD_STR; END_OF_LINE_STR]; data := []; sentence_start := [] |}.
(** 65-72: a word of a line *)
Definition add_word (d : darray) (w : string) : darray :=
  match lookup String.eqb (word2id d) w with
  | Some i => {| word2id := word2id d; id2word := id2word d; data := data d ++ [i]; sentence_start := sentence_start d |}
  | None =>
      let i := length (id2word d) in
      {| word2id := (w, i) :: word2id d; id2word := id2word d ++ [w]; data := data d ++ [i]; sentence_start := sentence_start d |}
  end.
(** 61-75: a line *)
Definition add_line (d : darray) (line : list string) : darray :=
  let d1 := fold_left add_word line
    {| word2id := word2id d; id2word := id2word d; data := data d; sentence_start := sentence_start d ++ [length (data d)] |} in
  {| word2id := word2id d1; id2word := id2word d1; data := data d1 ++ [END_OF_LINE]; sentence_start := sentence_start d1 |}.
(** 59-82 *)
Definition CreateDataArray (lines : list (list string)) : darray :=
  let d := fold_left add_line lines InitializeDataArray in
  {| word2id := word2id d; id2word := id2word d; data := data d; sentence_start := sentence_start d ++ [length (data d)] |}.
(** 115-117, 132-135 *)
Definition GetNumSentences (d : darray) : nat := length (sentence_start d) - 1.
Definition GetWordId (d : darray) (w : string) : option nat := lookup String.eqb (word2id d) w.

(** ** TranslationTable *)
Record counts := { source_links : list (nat * nat); target_links : list (nat * nat); links_count : list ((nat * nat) * nat) }.
(** translation_table.cc 81-90 *)
Definition IncrementLinksCount (c : counts) (s t : nat) : counts :=
  {| source_links := incr Nat.eqb (source_links c) s; target_links := incr Nat.eqb (target_links c) t; links_count := incr pair_eqb (links_count c) (s, t) |}.
(** data[from .. to) (36-39) *)
Definition slice (l : list nat) (from to : nat) : option (list nat) :=
  if (from <=? to) && (to <=? length l) then Some (firstn (to - from) (skipn from l)) else None.
(** linked[i] = 1 *)
Fixpoint flag (l : list bool) (i : nat) : option (list bool) :=
  match l, i with
  | [], _ => None
  | _ :: r, O => Some (true :: r)
  | b :: r, S i' => r' <- flag r i' ;; Some (b :: r')
  end.
(** 43-48 *)
Fixpoint count_links (links : list (nat * nat)) (ss ts : list nat) (sl tl : list bool) (c : counts) : option (list bool * list bool * counts) :=
  match links with
  | [] => Some (sl, tl, c)
  | (i, j) :: r =>
      sl' <- flag sl i ;; tl' <- flag tl j ;; s <- nth_error ss i ;; t <- nth_error ts j ;;
      count_links r ss ts sl' tl' (IncrementLinksCount c s t)
  end.
(** 50-55, 57-62 *)
Fixpoint count_source_null (ss : list nat) (sl : list bool) (c : counts) : counts :=
  match ss, sl with s :: ss', l :: sl' => count_source_null ss' sl' (if l then c else IncrementLinksCount c s NULL_WORD) | _, _ => c end.
Fixpoint count_target_null (ts : list nat) (tl : list bool) (c : counts) : counts :=
  match ts, tl with t :: ts', l :: tl' => count_target_null ts' tl' (if l then c else IncrementLinksCount c NULL_WORD t) | _, _ => c end.
(** 27-63: one sentence *)
Definition count_sentence (sd td : darray) (alignment : list (list (nat * nat))) (c : counts) (i : nat) : option counts :=
  links <- nth_error alignment i ;;
  s0 <- nth_error (sentence_start sd) i ;; t0 <- nth_error (sentence_start td) i ;;
  s1 <- nth_error (sentence_start sd) (i + 1) ;; t1 <- nth_error (sentence_start td) (i + 1) ;;
  ss <- slice (data sd) s0 (s1 - 1) ;; ts <- slice (data td) t0 (t1 - 1) ;;
  ' (sl, tl, c1) <- count_links links ss ts (map (fun _ => false) ss) (map (fun _ => false) ts) c ;;
  Some (count_target_null ts tl (count_source_null ss sl c1)).
Fixpoint count_all (sd td : darray) (alignment : list (list (nat * nat))) (is : list nat) (c : counts) : option counts :=
  match is with [] => Some c | i :: r => c' <- count_sentence sd td alignment c i ;; count_all sd td alignment r c' end.
Notation probs := (list ((nat * nat) * (R * R))) (only parsing).
(** m[k] for a map of counts *)
Definition at_ (m : list (nat * nat)) (k : nat) : nat := match lookup Nat.eqb m k with Some v => v | None => 0 end.
(** 15-75 *)
Definition TranslationTable (sd td : darray) (alignment : list (list (nat * nat))) : option probs :=
  c <- count_all sd td alignment (seq 0 (GetNumSentences sd)) {| source_links := []; target_links := []; links_count := [] |} ;;
  Some (map (fun e => (fst e, (INR (snd e) / INR (at_ (source_links c) (fst (fst e))), INR (snd e) / INR (at_ (target_links c) (snd (fst e))))%R)) (links_count c)).
(** 92-120 *)
Definition score_of (which : R * R -> R) (sd td : darray) (tp : probs) (source_word target_word : string) : R :=
  match GetWordId sd source_word, GetWordId td target_word with
  | Some s, Some t => match lookup pair_eqb tp (s, t) with Some p => which p | None => 0%R end
  | _, _ => (-1)%R
  end.
Definition GetTargetGivenSourceScore := score_of fst.
Definition GetSourceGivenTargetScore := score_of snd.

(** ** The features *)
(** features/feature.h *)
Definition MAX_SCORE : R := 99%R.
Definition log10 (x : R) : R := (ln x / ln 10)%R.
(** the cost of a word: the best of its partners *)
Definition best (score : string -> R) (partners : list string) : R := fold_left (fun m w => Rmax m (score w)) partners 0%R.
Definition cost (m : R) : R := if Rlt_dec 0 m then (- log10 m)%R else MAX_SCORE.
(** max_lex_source_given_target.cc 15-31 *)
Definition MaxLexSourceGivenTarget (table : string -> string -> R) (source_words target_words : list string) : R :=
  fold_left (fun score s => score + cost (best (fun t => table s t) (target_words ++ [NULL_WORD_STR])))%R source_words 0%R.
(** max_lex_target_given_source.cc 15-31 *)
Definition MaxLexTargetGivenSource (table : string -> string -> R) (source_words target_words : list string) : R :=
  fold_left (fun score t => score + cost (best (fun s => table s t) (source_words ++ [NULL_WORD_STR])))%R target_words 0%R.
