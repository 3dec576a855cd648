(** Model of the corpus arrays of the extractor (extractor/data_array.cc 59-84), of
    PhraseLocation (phrase_location.cc) and of FastIntersector (fast_intersector.cc 30-177).
    int and size_t are unbounded.  A line of the corpus is the list of the ids of its words;
    [wid] is data_array->GetWordId(vocabulary->GetTerminalValue(s)), the id of a symbol of
    the vocabulary in the corpus, -1 when the corpus does not have the word; a symbol below
    0 is a nonterminal (vocabulary.cc 23-33); [pre] is the precomputed index, None for a
    pattern that it does not contain.  [None]: an access outside an array. *)
From Coq Require Import List ZArith Bool.
From Verif Require Import Opt Precomp RuleEx.
Import ListNotations.
Open Scope Z_scope.
Open Scope opt_scope.

(** ** DataArray *)
Record darray := { da_data : list Z; da_id : list Z; da_start : list Z }.
(** CreateDataArray (59-84); [i]: the number of the line *)
Fixpoint create (i : Z) (lines : list (list Z)) (d : darray) : darray :=
  match lines with
  | [] => {| da_data := da_data d; da_id := da_id d; da_start := da_start d ++ [size (da_data d)] |}
  | l :: r => create (i + 1) r {| da_data := da_data d ++ l ++ [END_OF_LINE];
                                  da_id := da_id d ++ map (fun _ => i) (l ++ [END_OF_LINE]);
                                  da_start := da_start d ++ [size (da_data d)] |}
  end.
Definition CreateDataArray (lines : list (list Z)) : darray := create 0 lines {| da_data := []; da_id := []; da_start := [] |}.

(** ** PhraseLocation (phrase_location.cc 5-24) *)
Record location := { sa_low : Z; sa_high : Z; matchings : option (list Z); num_subpatterns : Z }.
Definition range_loc (low high : Z) : location := {| sa_low := low; sa_high := high; matchings := None; num_subpatterns := 0 |}.
Definition match_loc (ms : list Z) (k : Z) : location := {| sa_low := 0; sa_high := 0; matchings := Some ms; num_subpatterns := k |}.
(** GetSize (18-24) *)
Definition GetSize (l : location) : option Z :=
  if 0 <? num_subpatterns l then (m <- matchings l ;; Some (size m)) else Some (sa_high l - sa_low l).
(** IsEmpty (14-16) *)
Definition IsEmpty (l : location) : option bool := n <- GetSize l ;; Some (n =? 0).

Section Intersector.
Variable d : darray.
Variable sa : list Z.
Variable wid : Z -> Z.
Variable pre : list Z -> option (list Z).
Variables max_rule_span min_gap_size : Z.

(** ExtendPhraseLocation (157-168): the location as it is afterwards *)
Fixpoint gather (k : nat) (i : Z) : option (list Z) :=
  match k with O => Some [] | S k' => p <- get sa i ;; r <- gather k' (i + 1) ;; Some (p :: r) end.
Definition ExtendPhraseLocation (l : location) : option location :=
  match matchings l with
  | Some _ => Some l
  | None => m <- gather (Z.to_nat (sa_high l - sa_low l)) (sa_low l) ;; Some (match_loc m 1)
  end.
(** GetSearchRange (170-176) *)
Definition GetSearchRange (has_marginal_x : bool) : Z * Z :=
  if has_marginal_x then (min_gap_size + 1, max_rule_span) else (1, 2).
(** EstimateNumOperations (63-67) *)
Definition EstimateNumOperations (l : location) (has_margin_x : bool) : option Z :=
  n <- GetSize l ;; Some (if has_margin_x then n * max_rule_span else n).

(** 98-111: the ends found for one occurrence of the prefix; [k]: iterations left *)
Fixpoint search_end (k : nat) (word first sent_end pattern_end : Z) : option (list Z) :=
  match k with
  | O => Some []
  | S k' =>
      if orb (sent_end <=? pattern_end) (max_rule_span <=? pattern_end - first) then Some []
      else x <- get (da_data d) pattern_end ;;
           r <- search_end k' word first sent_end (pattern_end + 1) ;;
           Some (if x =? word then pattern_end :: r else r)
  end.
(** 86-112; [i]: the first entry of the occurrence, [fuel]: more than the occurrences left *)
Fixpoint prefix_loop (fuel : nat) (positions : list Z) (k : Z) (ends_x : bool) (len word i : Z) : option (list Z) :=
  if i <? size positions then
    match fuel with
    | O => None
    | S f =>
        let range := GetSearchRange ends_x in
        first <- get positions i ;;
        sent <- get (da_id d) first ;;
        next <- get (da_start d) (sent + 1) ;;
        last <- get positions (i + k - 1) ;;
        ends <- search_end (Z.to_nat (snd range - fst range)) word first (next - 1)
                  (last + fst range + (if ends_x then len - 1 else len - 2)) ;;
        group <- slice positions i k ;;
        r <- prefix_loop f positions k ends_x len word (i + k) ;;
        Some (flat_map (fun e => group ++ (if ends_x then [e] else [])) ends ++ r)
    end
  else Some [].
(** 69-115; the location of the prefix is changed too (72) *)
Definition ExtendPrefix (prefix : location) (symbols : list Z) (ends_x : bool) (next : Z) : option (location * location) :=
  l <- ExtendPhraseLocation prefix ;;
  positions <- matchings l ;;
  let k := num_subpatterns l in
  if wid next =? -1 then Some (match_loc [] k, l)
  else
    let arity := size (var_pos 0 symbols) in
    len <- GetChunkLen symbols (if ends_x then arity - 1 else arity) ;;
    ps <- prefix_loop (S (length positions)) positions k ends_x len (wid next) 0 ;;
    Some (match_loc ps (arity + 1), l).

(** 140-152 *)
Fixpoint search_start (k : nat) (word last sent_start pattern_start : Z) : option (list Z) :=
  match k with
  | O => Some []
  | S k' =>
      if orb (pattern_start <? sent_start) (max_rule_span <=? last - pattern_start) then Some []
      else x <- get (da_data d) pattern_start ;;
           r <- search_start k' word last sent_start (pattern_start - 1) ;;
           Some (if x =? word then pattern_start :: r else r)
  end.
(** 132-153 *)
Fixpoint suffix_loop (fuel : nat) (positions : list Z) (k : Z) (starts_x : bool) (len word i : Z) : option (list Z) :=
  if i <? size positions then
    match fuel with
    | O => None
    | S f =>
        let range := GetSearchRange starts_x in
        first <- get positions i ;;
        sent <- get (da_id d) first ;;
        sent_start <- get (da_start d) sent ;;
        last <- get positions (i + k - 1) ;;
        begins <- search_start (Z.to_nat (snd range - fst range)) word (last + len - 1) sent_start (first - fst range) ;;
        let skip := if starts_x then 0 else 1 in
        group <- slice positions (i + skip) (k - skip) ;;
        r <- suffix_loop f positions k starts_x len word (i + k) ;;
        Some (flat_map (fun b => b :: group) begins ++ r)
    end
  else Some [].
(** 117-155 *)
Definition ExtendSuffix (suffix : location) (symbols : list Z) (starts_x : bool) (prev : Z) : option (location * location) :=
  l <- ExtendPhraseLocation suffix ;;
  positions <- matchings l ;;
  let k := num_subpatterns l in
  if wid prev =? -1 then Some (match_loc [] k, l)
  else
    let arity := size (var_pos 0 symbols) in
    len <- GetChunkLen symbols arity ;;
    ps <- suffix_loop (S (length positions)) positions k starts_x len (wid prev) 0 ;;
    Some (match_loc ps (arity + 1), l).

(** Intersect (30-61): the occurrences, and the two locations as they are afterwards. *)
Definition Intersect (prefix suffix : location) (symbols : list Z) : option (location * location * location) :=
  match pre symbols with
  | Some ms => Some (match_loc ms (size (var_pos 0 symbols) + 1), prefix, suffix)
  | None =>
      before <- get symbols (size symbols - 2) ;;
      after <- get symbols 1 ;;
      let ends_x := before <? 0 in
      let starts_x := after <? 0 in
      a <- EstimateNumOperations prefix ends_x ;;
      b <- EstimateNumOperations suffix starts_x ;;
      if a <=? b then
        next <- get symbols (size symbols - 1) ;;
        '(r, p) <- ExtendPrefix prefix symbols ends_x next ;;
        Some (r, p, suffix)
      else
        prev <- get symbols 0 ;;
        '(r, s) <- ExtendSuffix suffix symbols starts_x prev ;;
        Some (r, prefix, s)
  end.
End Intersector.
