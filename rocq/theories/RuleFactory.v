(** Model of HieroCachingRuleFactory::GetGrammar (extractor/rule_factory.cc 107-309) with
    the trie of matchings (matchings_trie.h 18-48): which phrases of an input sentence are
    looked up, and the locations that go to the sampler and the rule extractor.
    A node of the trie is created once and stored as the child of one node, so a node is
    identified with its path from the root, a list of symbols; the node of a state is
    always the one at the phrase of the state.  The fields State::subpatterns_start and
    TrieNode::phrase are not used by the code and left out; size_t and int are unbounded;
    the k-th nonterminal is the symbol -k (vocabulary.cc 23-25).
    [None]: a null pointer followed, an access outside an array, or fuel used up. *)
From Coq Require Import List ZArith Bool.
From Verif Require Import Opt Fix Precomp Suffix RuleEx Intersect.
Import ListNotations.
Open Scope Z_scope.
Open Scope opt_scope.

Record tnode := { t_link : option (list Z); t_loc : location }.
(** None: no child there; Some None: a child that is a null pointer. *)
Definition trie := list Z -> option (option tnode).
Definition set (t : trie) (p : list Z) (v : option tnode) : trie := fun q => if list_eqb p q then Some v else t q.
(** A pointer followed. *)
Definition node_at (t : trie) (p : list Z) : option tnode := match t p with Some (Some n) => Some n | _ => None end.
(** HasChild (matchings_trie.h 33-35) *)
Definition HasChild (t : trie) (p : list Z) (key : Z) : bool := match t (p ++ [key]) with Some _ => true | None => false end.
(** GetChild (38-40): operator[] adds a null pointer for a missing key *)
Definition GetChild (t : trie) (p : list Z) (key : Z) : trie * option tnode :=
  match t (p ++ [key]) with Some v => (t, v) | None => (set t (p ++ [key]) None, None) end.

Record state := { s_start : Z; s_end : Z; s_phrase : list Z; s_x : bool }.
Definition arity (symbols : list Z) : Z := size (var_pos 0 symbols).

Section Factory.
Variable d : darray.
Variables sa ws : list Z.
Variable wid : Z -> Z.
Variable pre : list Z -> option (list Z).
Variables max_rule_span min_gap_size max_nonterminals max_rule_symbols : Z.
(** 62 *)
Definition max_chunks : Z := max_nonterminals + 1.
Variable words : list Z.

(** MatchingsFinder::Find (matchings_finder.cc 15-23) changes the location it is given. *)
Definition find_before (l : location) : location :=
  if andb (sa_low l =? -1) (sa_high l =? -1)
  then {| sa_low := 0; sa_high := size sa; matchings := matchings l; num_subpatterns := num_subpatterns l |} else l.
Definition FindLoc (l : location) (word offset : Z) : option (location * location) :=
  let l' := find_before l in
  '(a, b) <- Lookup (da_data d) sa ws (sa_low l') (sa_high l') (wid word) offset ;;
  Some (range_loc a b, l').
(** assignment to a field of a node *)
Definition set_loc (t : trie) (p : list Z) (l : location) : option trie :=
  n <- node_at t p ;; Some (set t p (Some {| t_link := t_link n; t_loc := l |})).

(** CannotHaveMatchings (230-238) *)
Definition CannotHaveMatchings (t : trie) (p : list Z) (word : Z) : option (trie * bool) :=
  n <- node_at t p ;;
  match t (p ++ [word]) with
  | Some None => Some (t, true)
  | _ => match t_link n with
         | None => Some (t, false)
         | Some link => let '(t', c) := GetChild t link word in Some (t', match c with None => true | Some _ => false end)
         end
  end.
(** AddTrailingNonterminal (245-266); [p]: the path of prefix_node *)
Definition AddTrailingNonterminal (t : trie) (p : list Z) (starts_with_x : bool) : option trie :=
  if max_nonterminals <=? arity p then Some t
  else
    let var_id := - (arity p + 1) in
    let suffix_var_id := - (arity p + b2z (negb starts_with_x)) in
    n <- node_at t p ;;
    link <- t_link n ;;
    _ <- node_at t link ;;
    let '(t', c) := GetChild t link suffix_var_id in
    Some (set t' (p ++ [var_id]) (Some {| t_link := match c with Some _ => Some (link ++ [suffix_var_id]) | None => None end; t_loc := t_loc n |})).
(** 295-306 *)
Fixpoint gap_states (k : nat) (s : state) (symbols : list Z) (i : Z) : list state :=
  match k with
  | O => []
  | S k' =>
      if andb (i <? size words) (i - s_start s <=? max_rule_span)
      then {| s_start := s_start s; s_end := i; s_phrase := symbols; s_x := s_x s |} :: gap_states k' s symbols (i + 1)
      else []
  end.
(** ExtendState (268-309); [symbols]: the phrase of the state with its last word.  The
    while loop runs at most once per word of the sentence. *)
Definition ExtendState (t : trie) (s : state) (symbols : list Z) : option (trie * list state) :=
  let span := s_end s - s_start s in
  if orb (orb (max_rule_symbols <=? size symbols) (size words <=? s_end s + 1)) (max_rule_span <=? span) then Some (t, [])
  else
    let next := {| s_start := s_start s; s_end := s_end s + 1; s_phrase := symbols; s_x := s_x s |} in
    let num_subpatterns := arity symbols + b2z (negb (s_x s)) in
    if orb (orb (max_rule_symbols <=? size symbols + 1) (max_nonterminals <=? arity symbols)) (max_chunks <=? num_subpatterns)
    then Some (t, [next])
    else
      let var_id := - (arity symbols + 1) in
      let more := gap_states (length words) s (symbols ++ [var_id]) (s_end s + 1 + min_gap_size) in
      match more with
      | [] => Some (t, [next])
      | _ => let '(t', c) := GetChild t symbols var_id in
             _ <- c ;; Some (t', next :: more)   (* a state without node cannot be processed *)
      end.

(** The phrases and locations given to the extractor. *)
Definition call : Type := list Z * location.
(** One iteration of the loop (133-213). *)
Definition step (t : trie) (s : state) : option (trie * list call * list state) :=
  word <- get words (s_end s) ;;
  let p := s_phrase s in
  let phrase := p ++ [word] in
  '(t1, cannot) <- CannotHaveMatchings t p word ;;
  if cannot then Some (if HasChild t1 p word then t1 else set t1 phrase None, [], [])
  else if negb (HasChild t1 p word) then
    node <- node_at t1 p ;;
    let link := match t_link node with None => [] | Some l => l ++ [word] end in
    link_node <- node_at t1 link ;;
    if s_x s then
      (* 155-159 *)
      let t2 := set t1 phrase (Some {| t_link := Some link; t_loc := t_loc link_node |}) in
      t3 <- AddTrailingNonterminal t2 phrase true ;;
      '(t4, more) <- ExtendState t3 s phrase ;;
      Some (t4, [], more)
    else
      (* 161-185 *)
      '(loc, t2) <- (if 0 <? arity phrase then
                       '(r, l1, l2) <- Intersect d sa wid pre max_rule_span min_gap_size (t_loc node) (t_loc link_node) phrase ;;
                       ta <- set_loc t1 p l1 ;; tb <- set_loc ta link l2 ;; Some (r, tb)
                     else
                       '(r, l1) <- FindLoc (t_loc node) word (size p) ;;
                       ta <- set_loc t1 p l1 ;; Some (r, ta)) ;;
      empty <- IsEmpty loc ;;
      if (empty : bool) then Some (t2, [], [])
      else
        let t3 := set t2 phrase (Some {| t_link := Some link; t_loc := loc |}) in
        t4 <- AddTrailingNonterminal t3 phrase false ;;
        '(t5, more) <- ExtendState t4 s phrase ;;
        Some (t5, [(phrase, loc)], more)
  else
    '(t2, more) <- ExtendState t1 s phrase ;;
    Some (t2, [], more).
(** 132-214 *)
Fixpoint run (fuel : nat) (t : trie) (queue : list state) : option (list call) :=
  match queue with
  | [] => Some []
  | s :: q =>
      match fuel with
      | O => None
      | S f => '(t', c, more) <- step t s ;; r <- run f t' (q ++ more) ;; Some (c ++ r)
      end
  end.
(** 115-130 *)
Definition root_trie : trie :=
  set (set (fun _ => None) [] (Some {| t_link := None; t_loc := range_loc (-1) (-1) |}))
      [-1] (Some {| t_link := Some []; t_loc := range_loc (-1) (-1) |}).
Definition initial : list state :=
  map (fun i => {| s_start := Z.of_nat i; s_end := Z.of_nat i; s_phrase := []; s_x := false |}) (seq 0 (length words)) ++
  map (fun i => {| s_start := Z.of_nat i - min_gap_size; s_end := Z.of_nat i; s_phrase := [-1]; s_x := true |})
    (seq (Z.to_nat min_gap_size) (length words - Z.to_nat min_gap_size)).
Definition GetGrammar (fuel : nat) : option (list call) := run fuel root_trie initial.
End Factory.
