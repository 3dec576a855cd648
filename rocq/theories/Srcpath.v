(** decoder/ff_source_path.cc, ff_charset.cc and the reordering features of ff_spans.cc: source words and neighbours, target words with other
    letters, and rules with two variables which exchange them.  Features are named by their words and numbers instead of by text, and
    the features fired are a list.  [None]: undefined behaviour, a failed assertion or an endless loop. *)
From Coq Require Import List Arith ZArith Bool.
From Verif Require Import Opt.
Import ListNotations.
Open Scope opt_scope.
Local Open Scope nat_scope.

(** source side (words positive, variables negative), target side (words positive, variable n is -n), antecedents in the order of the
    source side *)
Inductive deriv := Node (f e : list Z) (kids : list deriv).

(** ** SourcePathFeatures *)
Inductive feat := SU (w : Z) | SB (a b : Z).
(** ff_source_path.cc 27-41: the symbols with the contexts of the antecedents; the context of the edge and the features *)
Fixpoint path (f : list Z) (ants : list Z) (prev : Z) : option (Z * list feat) :=
  match f with
  | [] => Some (prev, [])
  | x :: r =>
      ' (cur, ants', fired) <- (if (x <? 0)%Z then match ants with [] => None | a :: ants' => Some (a, ants', []) end else Some (x, ants, [SU x])) ;;
      ' (res, more) <- path r ants' cur ;;
      Some (res, fired ++ (if (prev =? 0)%Z then [] else [SB prev cur]) ++ more)
  end.
(** all edges of a derivation *)
Fixpoint source_path (d : deriv) : option (Z * list feat) :=
  match d with
  | Node f _ kids =>
      rs <- (fix go (ks : list deriv) := match ks with [] => Some [] | k :: r => x <- source_path k ;; xs <- go r ;; Some (x :: xs) end) kids ;;
      ' (res, fired) <- path f (map fst rs) 0 ;;
      Some (res, fired ++ concat (map snd rs))
  end.

(** ** NonLatinCount *)
(** utils/stringlib.h 295-303 *)
Definition UTF8Len (x : nat) : nat :=
  if x <? 128 then 1 else if x / 32 =? 6 then 2 else if x / 16 =? 14 then 3 else if x / 8 =? 30 then 4 else if x / 4 =? 62 then 5 else if x / 2 =? 126 then 6 else 0.
(** ff_charset.cc 12-20; a word is its bytes; a step of no bytes never ends, longer steps than one byte are not taken *)
Fixpoint ContainsNonLatin (word : list nat) : option bool :=
  match word with
  | [] => Some false
  | c :: r => let size := UTF8Len c in if 1 <? size then Some true else if size =? 0 then None else ContainsNonLatin r
  end.
Fixpoint find_word (c : list (Z * bool)) (w : Z) : option bool := match c with [] => None | (w', b) :: r => if (w =? w')%Z then Some b else find_word r w end.
(** 28-42: the cache and the count after *)
Fixpoint count_words (text : Z -> list nat) (e : list Z) (cache : list (Z * bool)) : option (list (Z * bool) * nat) :=
  match e with
  | [] => Some (cache, 0)
  | w :: r =>
      ' (cache', b) <- (if (0 <? w)%Z then match find_word cache w with Some b => Some (cache, b) | None => b <- ContainsNonLatin (text w) ;; Some ((w, b) :: cache, b) end
                        else Some (cache, false)) ;;
      ' (cache'', n) <- count_words text r cache' ;;
      Some (cache'', (if b then 1 else 0) + n)
  end.
(** all edges of a derivation *)
Fixpoint non_latin (text : Z -> list nat) (d : deriv) (cache : list (Z * bool)) : option (list (Z * bool) * nat) :=
  match d with
  | Node _ e kids =>
      ' (c1, n1) <- (fix go (ks : list deriv) (c : list (Z * bool)) := match ks with [] => Some (c, 0) | k :: r => ' (c', n) <- non_latin text k c ;; ' (c'', m) <- go r c' ;; Some (c'', n + m) end) kids cache ;;
      ' (c2, n2) <- count_words text e c1 ;;
      Some (c2, n1 + n2)
  end.
(** one derivation after the other, with the same cache *)
Fixpoint all_non_latin (text : Z -> list nat) (ds : list deriv) (cache : list (Z * bool)) : option (list nat) :=
  match ds with [] => Some [] | d :: r => ' (c, n) <- non_latin text d cache ;; ns <- all_non_latin text r c ;; Some (n :: ns) end.

(** ** CMR2008ReorderingFeatures *)
Inductive cmr := Mono | Reorder | MonoSpan (k : Z) | ReorderSpan (k : Z).
(** ff_spans.cc 198-205 *)
Fixpoint IsArity2RuleReordered (e : list Z) : option bool :=
  match e with [] => None | x :: r => if (x <=? 0)%Z then Some (x <? 0)%Z else IsArity2RuleReordered r end.
Section Cmr.
(** 31-34: SpanSizeTransform, logarithms of floating point numbers *)
Variable SpanSizeTransform : nat -> Z.
(** 215-226: fids_ *)
Definition fids : list (option (cmr * cmr)) :=
  None :: map (fun n => Some (MonoSpan (SpanSizeTransform n), ReorderSpan (SpanSizeTransform n))) (seq 1 15).
(** 229-253; [isS]: lhs_ is S; from i to j; the features set to 1, feature -1 is [None] *)
Definition Cmr (isS : bool) (arity : nat) (e : list Z) (i j : Z) : option (list cmr) :=
  if negb (arity =? 2) then Some [] else if isS then Some [] else
  if (0 <=? i)%Z && (i <? j)%Z then
    b <- IsArity2RuleReordered e ;;
    o <- nth_error fids (Z.to_nat (j - i)) ;; p <- o ;;
    Some (if b : bool then [Reorder; snd p] else [Mono; fst p])
  else None.
End Cmr.
