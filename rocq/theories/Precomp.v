(** extractor/precomputation.cc: the frequent patterns of a corpus (75-108) and the index
    of discontiguous patterns made of them (15-69, 121-189).
    Simplifications: int and size_t are unbounded (all values are at most the corpus size
    plus the option values); the priority queue is a list kept in descending order;
    matchings and annotations, two vectors of equal length in the code, are one list;
    Vocabulary::GetTerminalIndex of a word is a function [ann] of its id; timing output is
    left out.  The loops of UpdateIndex never read the index, so the model returns the
    calls of AppendCollocation in order and the index is built from them.
    [None]: an access outside a vector. *)
From Coq Require Import List ZArith Bool.
From Verif Require Import Opt.
Import ListNotations.
Open Scope Z_scope.
Open Scope opt_scope.

(** data_array.cc: DataArray::END_OF_LINE *)
Definition END_OF_LINE : Z := 1.

(** ** FindMostFrequentPatterns (75-108) *)
(** pair<int, pair<int, int>>: frequency, start, length *)
Definition entry : Type := Z * (Z * Z).
(** operator< of pairs *)
Definition entry_lt (a b : entry) : bool :=
  let '(f, (s, l)) := a in let '(f', (s', l')) := b in
  orb (f <? f') (andb (f =? f') (orb (s <? s') (andb (s =? s') (l <? l')))).
(** heap.push (88) *)
Fixpoint push (e : entry) (heap : list entry) : list entry :=
  match heap with [] => [e] | x :: r => if entry_lt x e then e :: heap else x :: push e r end.
(** 85-90 *)
Definition freq_inner (data sa : list Z) (min_frequency i : Z) (len : Z) (st : list Z * list entry) : option (list Z * list entry) :=
  let '(run_start, heap) := st in
  r <- get run_start len ;;
  let frequency := i - r in
  start <- get sa r ;;
  let heap' := if andb (min_frequency <=? frequency) (start + len <=? size data) then push (frequency, (start, len + 1)) heap else heap in
  rs <- put run_start len i ;;
  Some (rs, heap').
(** 83-92 *)
Definition freq_scan (data sa lcp : list Z) (max_len : nat) (min_frequency : Z) : option (list Z * list entry) :=
  for_up (length lcp - 1) 1 (fun i st =>
      l <- get lcp i ;;
      for_up (Z.to_nat (Z.of_nat max_len - l)) l (freq_inner data sa min_frequency i) st)
    (repeat 0 max_len, []).
(** 101: vector(data.begin() + start, data.begin() + start + len) *)
Definition slice (data : list Z) (start len : Z) : option (list Z) :=
  if orb (start <? 0) (size data <? start + len) then None else Some (firstn (Z.to_nat len) (skipn (Z.to_nat start) data)).
(** 95-106 *)
Fixpoint take_frequent (data : list Z) (heap : list entry) (num : nat) : option (list (list Z)) :=
  match num, heap with
  | O, _ => Some []
  | _, [] => Some []
  | S k, (_, (start, len)) :: r =>
      pattern <- slice data start len ;;
      if existsb (Z.eqb END_OF_LINE) pattern then take_frequent data r num
      else rest <- take_frequent data r k ;; Some (pattern :: rest)
  end.
Definition FindMostFrequentPatterns (data sa lcp : list Z) (num max_len : nat) (min_frequency : Z) : option (list (list Z)) :=
  st <- freq_scan data sa lcp max_len min_frequency ;;
  take_frequent data (snd st) num.

(** ** The index *)
Fixpoint list_eqb (a b : list Z) : bool :=
  match a, b with [], [] => true | x :: a', y :: b' => andb (x =? y) (list_eqb a' b') | _, _ => false end.
Definition index := list (list Z * list Z).
(** AppendCollocation(index[pattern], ...) (178-189): operator[] creates the entry *)
Fixpoint append (idx : index) (key pos : list Z) : index :=
  match idx with
  | [] => [(key, pos)]
  | (k, l) :: r => if list_eqb k key then (k, l ++ pos) :: r else (k, l) :: append r key pos
  end.
Definition build_index (calls : list (list Z * list Z)) : index := fold_left (fun idx c => append idx (fst c) (snd c)) calls [].
(** GetCollocations (195-197); the empty list stands for the exception of a missing key (no entry is empty) *)
Fixpoint GetCollocations (idx : index) (key : list Z) : list Z :=
  match idx with [] => [] | (k, l) :: r => if list_eqb k key then l else GetCollocations r key end.

(** ** UpdateIndex (121-170) *)
Record matching := { m_start : Z; m_size : Z; m_super : bool; m_ann : list Z }.
Record opts := { span : Z; gap : Z; symbols : Z; max_phrase : nat; num_super : Z }.
(** vector::erase(position) *)
Definition erase (l : list Z) (i : Z) : list Z := firstn (Z.to_nat i) l ++ skipn (S (Z.to_nat i)) l.
(** 150-165; [pattern] is the vector as it is at the top of the loop *)
Fixpoint ternary (o : opts) (m1 m2 : matching) (pattern : list Z) (ms : list matching) : list (list Z * list Z) :=
  match ms with
  | [] => []
  | m3 :: r =>
      if span o <=? m_start m3 - m_start m1 then []
      else if andb (andb (gap o <=? m_start m3 - m_start m2 - m_size m2) (m_start m3 + m_size m3 - m_start m1 <=? span o))
                   (andb (m_size m1 + m_size m2 + m_size m3 + 2 <=? symbols o) (orb (m_super m1) (m_super m3)))
      then let p := pattern ++ m_ann m3 in
           (p, [m_start m1; m_start m2; m_start m3]) :: ternary o m1 m2 (erase p (size p - m_size m3)) r
      else ternary o m1 m2 pattern r
  end.
(** 131-168 *)
Fixpoint binary (o : opts) (m1 : matching) (ms : list matching) : list (list Z * list Z) :=
  match ms with
  | [] => []
  | m2 :: r =>
      if span o <=? m_start m2 - m_start m1 then []
      else if andb (andb (gap o <=? m_start m2 - m_start m1 - m_size m1) (m_start m2 + m_size m2 - m_start m1 <=? span o))
                   (m_size m1 + m_size m2 + 1 <=? symbols o)
      then let p := m_ann m1 ++ [-1] ++ m_ann m2 in
           (p, [m_start m1; m_start m2]) :: (if m_super m2 then ternary o m1 m2 (p ++ [-2]) r else []) ++ binary o m1 r
      else binary o m1 r
  end.
(** 126-169 *)
Fixpoint UpdateIndex (o : opts) (ms : list matching) : list (list Z * list Z) :=
  match ms with [] => [] | m1 :: r => binary o m1 r ++ UpdateIndex o r end.

(** ** The constructor (30-65) *)
(** frequent_patterns_index (31-33): the last position of a pattern *)
Fixpoint find_last (F : list (list Z)) (i : Z) (w : list Z) : option Z :=
  match F with
  | [] => None
  | x :: r => match find_last r (i + 1) w with Some k => Some k | None => if list_eqb x w then Some i else None end
  end.
Section Build.
Variable ann : Z -> Z.
Variable o : opts.
Variable F : list (list Z).
(** 53-64; [rest]: the data from position i + j - 1 on, [pattern]: the words before it *)
Fixpoint matches_at (i : Z) (pattern rest : list Z) (left : nat) {struct left} : list matching :=
  match left, rest with
  | S k, x :: r =>
      let p := pattern ++ [x] in
      match find_last F 0 p with
      | None => []
      | Some n => {| m_start := i; m_size := size p; m_super := n <? num_super o; m_ann := map ann p |} :: matches_at i p r k
      end
  | _, _ => []
  end.
(** 41-65; [ms]: the matchings of the current sentence *)
Fixpoint scan (i : Z) (rest : list Z) (ms : list matching) : list (list Z * list Z) :=
  match rest with
  | [] => []
  | x :: r =>
      if x =? END_OF_LINE then UpdateIndex o ms ++ scan (i + 1) r []
      else scan (i + 1) r (ms ++ matches_at i [] rest (max_phrase o))
  end.
Definition Precompute (data : list Z) : index := build_index (scan 0 data []).
End Build.
