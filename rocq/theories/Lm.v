(** Model of KenLM's n-gram scoring (klm/lm/model.cc), of its chart-state scorer
    (klm/lm/left.hh) and of the language model feature built on them
    (decoder/ff_klm.cc).

    Log probabilities, back-off weights and rest costs are floats in the code.  They are
    exact integers here, in units of 2^-149: every finite float is a whole number of
    those units, and only the rounding of sums is left out.  The two sign-bit tricks of
    the code are separate booleans: [ext_left] is "the sign bit of the stored probability
    is off" (klm/lm/value.hh 32-36) and [has_ext] is "the stored back-off is not -0.0"
    (klm/lm/blank.hh 33-39).

    An n-gram is the list of its word ids, newest word first, which is the order in
    which the code walks it.  A 64-bit hash of an n-gram, or a trie node, is the n-gram
    itself, so hash collisions are not modelled.  [None] is undefined behaviour: an index
    outside a table or array, a read of a value that was not written, a pointer to an
    n-gram that is not there. *)
From Coq Require Import List ZArith Bool.
Import ListNotations.
From Verif Require Import Opt.
Open Scope opt_scope.
Open Scope Z_scope.

Definition word := nat.
Definition ngram := list word.

(** klm/lm/weights.hh 11-19 *)
Record weights := Wt { prob : Z; ext_left : bool; backoff : Z; has_ext : bool; rest : Z }.

(** The tables of klm/lm/search_hashed.hh 62-186.  [max_order] is KENLM_MAX_ORDER;
    [middle i] is middle_[i], the table of (i+2)-grams; [longest] holds the n-grams of
    the highest order. *)
Record search := Search { max_order : nat; order : nat; unigram : word -> weights; middle : nat -> ngram -> option weights; longest : ngram -> option Z }.

(** klm/lm/state.hh 15-48.  The first [length] entries of words and backoff; what lies
    behind them is cleared before states are compared (ff_klm.cc 183). *)
Record state := State { words : list word; backoffs : list Z }.
Definition slen (s : state) : nat := length (words s).

(** klm/lm/state.hh 56-84, 93-115 *)
Record chart := Chart { pointers : list ngram; full : bool; right : state }.

(** klm/lm/return.hh 8-39 *)
Record ret := Ret { r_prob : Z; r_len : nat; r_indep : bool; r_ext : ngram; r_rest : Z }.
Definition set_indep (r : ret) : ret := Ret (r_prob r) (r_len r) true (r_ext r) (r_rest r).
Definition add_prob (r : ret) (x : Z) : ret := Ret (r_prob r + x) (r_len r) (r_indep r) (r_ext r) (r_rest r).

Definition zsum (l : list Z) : Z := fold_right Z.add 0 l.

Section Model.
Variable m : search.

(** search_hashed.hh 95-101: probability, node, independence of the left *)
Definition LookupUnigram (w : word) : weights * ngram := (unigram m w, [w]).

(** search_hashed.hh 108-119.  Outer option: middle_[order_minus_2] exists.  Inner
    option: Found(). *)
Definition LookupMiddle (om2 : nat) (w : word) (node : ngram) : option (option weights * ngram) :=
  if Nat.ltb om2 (order m - 2) then Some (middle m om2 (node ++ [w]), node ++ [w]) else None.

(** search_hashed.hh 121-126 *)
Definition LookupLongest (w : word) (node : ngram) : option Z := longest m (node ++ [w]).

(** search_hashed.hh 103-106 *)
Definition Unpack (p : ngram) (extend_length : nat) : option weights :=
  if andb (Nat.leb 2 extend_length) (Nat.ltb (extend_length - 2) (order m - 2)) then middle m (extend_length - 2) p else None.

(** model.cc 272-296.  [hist] is [hist_iter, context_rend).  The list returned is what is
    written to backoff_out; the number is next_use. *)
Fixpoint ResumeScore (hist : list word) (om2 : nat) (node : ngram) (next_use : nat) (r : ret) : option (list Z * nat * ret) :=
  match hist with
  | [] => Some ([], next_use, r)
  | h :: hist' =>
    if r_indep r then Some ([], next_use, r)
    else if Nat.eqb om2 (order m - 2) then
      match LookupLongest h node with
      | Some p => Some ([], next_use, Ret p (order m) true (r_ext r) p)
      | None => Some ([], next_use, set_indep r)
      end
    else
      x <- LookupMiddle om2 h node ;;
      match x with
      | (None, _) => Some ([], next_use, set_indep r)
      | (Some w, node') =>
        let r' := Ret (prob w) (om2 + 2) (negb (ext_left w)) node' (rest w) in
        let next_use' := if has_ext w then r_len r' else next_use in
        '(bs, nu, q) <- ResumeScore hist' (S om2) node' next_use' r' ;;
        Some (backoff w :: bs, nu, q)
      end
  end.

(** Arrays of KENLM_MAX_ORDER - 1 entries. *)
Definition fits {A : Type} (l : list A) : bool := Nat.leb (length l) (max_order m - 1).

(** model.cc 245-270 with CopyRemainingHistory, 233-237 *)
Definition ScoreExceptBackoff (context : list word) (new_word : word) : option (ret * state) :=
  let '(uni, node) := LookupUnigram new_word in
  let r := Ret (prob uni) 1 (negb (ext_left uni)) node (rest uni) in
  let len := if has_ext uni then 1%nat else 0%nat in
  match context with
  | [] => Some (r, State (firstn len [new_word]) (firstn len [backoff uni]))
  | _ :: _ =>
    '(bs, next_use, q) <- ResumeScore context 0 node len r ;;
    if fits (backoff uni :: bs)
    then Some (q, State (firstn next_use (new_word :: context)) (firstn next_use (backoff uni :: bs)))
    else None
  end.

(** model.cc 134-140 *)
Definition FullScore (in_state : state) (new_word : word) : option (ret * state) :=
  '(r, out) <- ScoreExceptBackoff (words in_state) new_word ;;
  Some (add_prob r (zsum (skipn (r_len r - 1) (backoffs in_state))), out).

(** model.cc 161-165: the loop, [ctx] being [i, context_rend) *)
Fixpoint charge (ctx : list word) (om2 : nat) (node : ngram) : option Z :=
  match ctx with
  | [] => Some 0
  | w :: ctx' =>
    x <- LookupMiddle om2 w node ;;
    match x with
    | (None, _) => Some 0
    | (Some p, node') => s <- charge ctx' (S om2) node' ;; Some (backoff p + s)
    end
  end.

(** model.cc 142-167, FastMakeNode search_hashed.hh 130-137 *)
Definition FullScoreForgotState (context : list word) (new_word : word) : option (ret * state) :=
  let ctx := firstn (order m - 1) context in
  '(r, out) <- ScoreExceptBackoff ctx new_word ;;
  let start := r_len r in
  if Nat.ltb (length ctx) start then Some (r, out)
  else if Nat.leb start 1 then
    match ctx with
    | [] => None
    | c :: ctx' =>
      let '(uni, node) := LookupUnigram c in
      s <- charge ctx' 0 node ;;
      Some (add_prob r (backoff uni + s), out)
    end
  else
    s <- charge (skipn (start - 1) ctx) (start - 2) (firstn (start - 1) ctx) ;;
    Some (add_prob r s, out).

(** model.cc 183-191: back-offs written and the length of the state *)
Fixpoint get_state_loop (ctx : list word) (om2 : nat) (node : ngram) (len : nat) : option (list Z * nat) :=
  match ctx with
  | [] => Some ([], len)
  | w :: ctx' =>
    x <- LookupMiddle om2 w node ;;
    match x with
    | (None, _) => Some ([], len)
    | (Some p, node') =>
      '(bs, len') <- get_state_loop ctx' (S om2) node' (if has_ext p then om2 + 2 else len)%nat ;;
      Some (backoff p :: bs, len')
    end
  end.

(** model.cc 169-193 *)
Definition GetState (context : list word) : option state :=
  match firstn (order m - 1) context with
  | [] => Some (State [] [])
  | c :: ctx =>
    let '(uni, node) := LookupUnigram c in
    '(bs, len) <- get_state_loop ctx 0 node (if has_ext uni then 1 else 0)%nat ;;
    Some (State (firstn len (c :: ctx)) (firstn len (backoff uni :: bs)))
  end.

(** model.cc 80-89 *)
Definition BeginSentenceState (bos : word) : state := State [bos] [backoff (unigram m bos)].

(** model.cc 195-227.  [add] is [add_rbegin, add_rend). *)
Definition ExtendLeft (add : list word) (backoff_in : list Z) (extend_pointer : ngram) (extend_length : nat) : option (ret * list Z * nat) :=
  p <- (if Nat.eqb extend_length 1
        then match extend_pointer with
             | [w] => let '(u, node) := LookupUnigram w in Some (u, Ret (prob u) 1 (negb (ext_left u)) node (rest u))
             | _ => None
             end
        else w <- Unpack extend_pointer extend_length ;;
             Some (w, Ret (prob w) extend_length false extend_pointer (rest w))) ;;
  let '(w, r) := p in
  let subtract_me := rest w in
  '(bs, next_use, q) <- ResumeScore add (extend_length - 1) extend_pointer extend_length r ;;
  if andb (fits bs) (Nat.leb (length add) (length backoff_in)) then
    let charged := zsum (skipn (r_len q - extend_length) (firstn (length add) backoff_in)) in
    Some (Ret (r_prob q + charged - subtract_me) (r_len q) (r_indep q) (r_ext q) (r_rest q - subtract_me), bs, (next_use - extend_length)%nat)
  else None.

(** model.cc 312-315 *)
Fixpoint unrest_loop (ptrs : list ngram) (first_length : nat) : option Z :=
  match ptrs with
  | [] => Some 0
  | p :: ptrs' =>
    w <- Unpack p first_length ;;
    s <- unrest_loop ptrs' (S first_length) ;;
    Some (prob w - rest w + s)
  end.

(** model.cc 298-317 and model.hh 101-104.  For models without separate rest costs the
    code returns 0.0 outright; the rest cost is then the probability and so is this sum. *)
Definition UnRest (ptrs : list ngram) (first_length : nat) : option Z :=
  if Nat.eqb first_length 1 then
    match ptrs with
    | [] => Some 0
    | [w] :: ptrs' => s <- unrest_loop ptrs' 2 ;; Some (prob (unigram m w) - rest (unigram m w) + s)
    | _ => None
    end
  else unrest_loop ptrs first_length.

(** ** klm/lm/left.hh 52-211: RuleScore.  [o_left] and [o_right] are out_->left.pointers
    and out_->right; out_->left.full is only written by Finish. *)
Record rule_score := RS { o_left : list ngram; o_right : state; left_done : bool; rs_prob : Z }.

(** left.hh 54-57 *)
Definition NewRule : rule_score := RS [] (State [] []) false 0.

(** left.hh 59-63 *)
Definition BeginSentence (bos : word) (s : rule_score) : rule_score := RS (o_left s) (BeginSentenceState bos) true (rs_prob s).

(** left.hh 74 and 200: out_->left.pointers[out_->left.length++] = p *)
Definition push_left (s : list ngram) (p : ngram) : option (list ngram) :=
  if fits (s ++ [p]) then Some (s ++ [p]) else None.

(** left.hh 65-78 *)
Definition Terminal (s : rule_score) (w : word) : option rule_score :=
  '(r, out) <- FullScore (o_right s) w ;;
  if left_done s then Some (RS (o_left s) out true (rs_prob s + r_prob r))
  else if r_indep r then Some (RS (o_left s) out true (rs_prob s + r_prob r))
  else
    l <- push_left (o_left s) (r_ext r) ;;
    Some (RS l out (negb (Nat.eqb (slen out) (slen (o_right s) + 1))) (rs_prob s + r_rest r)).

(** left.hh 81-85 *)
Definition BeginNonTerminal (c : chart) (p : Z) : rule_score := RS (pointers c) (right c) (full c) p.

(** left.hh 190-202 *)
Definition ProcessRet (s : rule_score) (r : ret) : option rule_score :=
  if left_done s then Some (RS (o_left s) (o_right s) true (rs_prob s + r_prob r))
  else if r_indep r then Some (RS (o_left s) (o_right s) true (rs_prob s + r_prob r))
  else
    l <- push_left (o_left s) (r_ext r) ;;
    Some (RS l (o_right s) false (rs_prob s + r_rest r)).

(** left.hh 170-188.  Result: the new state, the back-offs written, next_use, and whether
    the function returned true. *)
Definition RuleExtendLeft (s : rule_score) (c : chart) (next_use extend_length : nat) (back_in : list Z) : option (rule_score * list Z * nat * bool) :=
  p <- nth_error (pointers c) (extend_length - 1) ;;
  '(r, bs, nu) <- ExtendLeft (firstn next_use (words (o_right s))) back_in p extend_length ;;
  s1 <- ProcessRet s r ;;
  if Nat.eqb nu (slen (o_right s)) then Some (s1, bs, nu, false)
  else if Nat.eqb nu 0 then
    u <- UnRest (skipn extend_length (pointers c)) (S extend_length) ;;
    Some (RS (o_left s1) (right c) true (rs_prob s1 + u), bs, nu, true)
  else Some (RS (o_left s1) (o_right s1) true (rs_prob s1), bs, nu, false).

(** left.hh 122-125: [k] rounds from [extend_length] on *)
Fixpoint extend_loop (k : nat) (s : rule_score) (c : chart) (next_use extend_length : nat) (back : list Z) : option (rule_score * list Z * nat * bool) :=
  match k with
  | O => Some (s, back, next_use, false)
  | S k' =>
    '(s1, back2, nu, stop) <- RuleExtendLeft s c next_use extend_length back ;;
    if stop : bool then Some (s1, back2, nu, true) else extend_loop k' s1 c nu (S extend_length) back2
  end.

(** left.hh 87-150 *)
Definition NonTerminal (s0 : rule_score) (c : chart) (p : Z) : option rule_score :=
  let s := RS (o_left s0) (o_right s0) (left_done s0) (rs_prob s0 + p) in
  match pointers c with
  | [] =>
    if full c
    then Some (RS (o_left s) (right c) true (rs_prob s + zsum (backoffs (o_right s))))
    else Some s
  | _ :: _ =>
    if Nat.eqb (slen (o_right s)) 0 then
      if left_done s then
        u <- UnRest (pointers c) 1 ;; Some (RS (o_left s) (right c) true (rs_prob s + u))
      else match o_left s with
           | _ :: _ => Some (RS (o_left s) (right c) true (rs_prob s))
           | [] => Some (RS (pointers c) (right c) (full c) (rs_prob s))
           end
    else
      '(s1, back, next_use, stop) <- extend_loop (length (pointers c)) s c (slen (o_right s)) 1 (backoffs (o_right s)) ;;
      if stop : bool then Some s1
      else if full c then
        if Nat.leb next_use (length back)
        then Some (RS (o_left s1) (right c) true (rs_prob s1 + zsum (firstn next_use back)))
        else None
      else if Nat.ltb (slen (right c)) (length (pointers c)) then Some (RS (o_left s1) (right c) (left_done s1) (rs_prob s1))
      else
        let ws := words (right c) ++ firstn next_use (words (o_right s1)) in
        let bs := backoffs (right c) ++ firstn next_use back in
        if andb (fits ws) (Nat.leb next_use (length back))
        then Some (RS (o_left s1) (State ws bs) (left_done s1) (rs_prob s1))
        else None
  end.

(** left.hh 152-156 *)
Definition Finish (s : rule_score) : Z * chart :=
  (rs_prob s, Chart (o_left s) (orb (left_done s) (Nat.eqb (length (o_left s)) (order m - 1))) (o_right s)).

(** ** decoder/ff_klm.cc *)

(** ff_klm.cc 90-93 *)
Record annotated := Ann { a_state : chart; seen_bos : bool; seen_eos : bool }.

(** ff_klm.cc 97-148: BoundaryRuleScore; [b_pen] counts the penalties of 100 *)
Record boundary := Bnd { b_back : rule_score; b_bos : bool; b_eos : bool; b_pen : Z }.

(** 100.0f in units of 2^-149 *)
Definition hundred : Z := 100 * 2 ^ 149.

(** The language model as the feature sees it: ids of <s> and </s> in KenLM's
    vocabulary, the id of <s> and <unk> in the decoder's dictionary, the word map, the class
    map (empty when the model is not class based). *)
Record feature := Feature { kSOS : word; kEOS : word; kCDEC_SOS : Z; kCDEC_UNK : Z; cdec2klm_map : list word; word2class_map : list (Z * Z) }.

Section Feature.
Variable f : feature.

(** ff_klm.cc 212-220 *)
Definition ClassifyWordIfNecessary (w : Z) : Z * Z :=
  match word2class_map f with
  | [] => (w, 0)
  | _ => match nth_error (word2class_map f) (Z.to_nat w) with None => (kCDEC_UNK f, 0) | Some (c, e) => (c, e) end
  end.

(** ff_klm.cc 223-228 *)
Definition MapWord (w : Z) : word := nth (Z.to_nat w) (cdec2klm_map f) 0%nat.

(** ff_klm.cc 99-107 *)
Definition NewBoundary : boundary := Bnd NewRule false false 0.
(** ff_klm.cc 109-112 *)
Definition BBeginSentence (b : boundary) : boundary := Bnd (BeginSentence (kSOS f) (b_back b)) true (b_eos b) (b_pen b).
(** ff_klm.cc 114-118 *)
Definition BBeginNonTerminal (b : boundary) (sub : annotated) : boundary :=
  Bnd (BeginNonTerminal (a_state sub) 0) (seen_bos sub) (seen_eos sub) (b_pen b).
(** ff_klm.cc 120-129 *)
Definition BNonTerminal (b : boundary) (sub : annotated) : option boundary :=
  s <- NonTerminal (b_back b) (a_state sub) 0 ;;
  let p1 := if seen_bos sub then b_pen b + 1 else b_pen b in
  let p2 := if b_eos b then p1 + 1 else p1 in
  Some (Bnd s (orb (b_bos b) (seen_bos sub)) (orb (b_eos b) (seen_eos sub)) p2).
(** ff_klm.cc 131-135 *)
Definition BTerminal (b : boundary) (w : word) : option boundary :=
  s <- Terminal (b_back b) w ;;
  Some (Bnd s (b_bos b) (orb (b_eos b) (Nat.eqb w (kEOS f))) (if b_eos b then b_pen b + 1 else b_pen b)).
(** ff_klm.cc 137-139 *)
Definition BFinish (b : boundary) : Z * annotated :=
  let '(p, c) := Finish (b_back b) in (- hundred * b_pen b + p, Ann c (b_bos b) (b_eos b)).

(** ant_states[-e] *)
Definition antecedent (ants : list annotated) (e : Z) : option annotated := nth_error ants (Z.to_nat (- e)).

(** ff_klm.cc 170-181: remaining symbols, OOV count and emission score so far *)
Fixpoint lookup_loop (e : list Z) (ants : list annotated) (b : boundary) (oovs emit : Z) : option (boundary * Z * Z) :=
  match e with
  | [] => Some (b, oovs, emit)
  | x :: e' =>
    if x <=? 0 then
      a <- antecedent ants x ;; b1 <- BNonTerminal b a ;; lookup_loop e' ants b1 oovs emit
    else
      let '(cls, ep) := ClassifyWordIfNecessary x in
      let cur := MapWord cls in
      b1 <- BTerminal b cur ;;
      lookup_loop e' ants b1 (if Nat.eqb cur 0 then oovs + 1 else oovs) (emit + ep)
  end.

(** ff_klm.cc 155-185: score, OOV count, emission score and the state written to remnant *)
Definition LookupWords (e : list Z) (ants : list annotated) : option (Z * Z * Z * annotated) :=
  '(b0, e0) <- (match e with
                | [] => Some (NewBoundary, [])
                | x :: e' =>
                  if x =? kCDEC_SOS f then Some (BBeginSentence NewBoundary, e')
                  else if x <=? 0 then a <- antecedent ants x ;; Some (BBeginNonTerminal NewBoundary a, e')
                  else Some (NewBoundary, e)
                end) ;;
  '(b, oovs, emit) <- lookup_loop e0 ants b0 0 0 ;;
  let '(p, remnant) := BFinish b in
  Some (p, oovs, emit, remnant).

(** ff_klm.cc 189-207.  The asserts at 193-194 are outcome [None]. *)
Definition FinalTraversalCost (add_sos_eos : bool) (a : annotated) : option Z :=
  if add_sos_eos then
    if orb (seen_bos a) (seen_eos a) then None
    else
      s <- NonTerminal (BeginSentence (kSOS f) NewRule) (a_state a) 0 ;;
      s <- Terminal s (kEOS f) ;;
      Some (fst (Finish s))
  else Some ((if seen_bos a then 0 else - hundred) + (if seen_eos a then 0 else - hundred)).

(** A derivation: the target side of a rule and the derivations of its nonterminals.
    The three feature values summed over its edges (decoder/ff_klm.cc 344-359), bottom
    up, with the state of the root. *)
Inductive deriv := Apply (e : list Z) (subs : list deriv).

Fixpoint eval (d : deriv) : option (Z * Z * Z * annotated) :=
  match d with
  | Apply e subs =>
    '(ps, os, es, ants) <- (fix evals (ds : list deriv) : option (Z * Z * Z * list annotated) :=
       match ds with
       | [] => Some (0, 0, 0, [])
       | d1 :: ds' =>
         '(p1, o1, e1, a1) <- eval d1 ;;
         '(p2, o2, e2, as2) <- evals ds' ;;
         Some (p1 + p2, o1 + o2, e1 + e2, a1 :: as2)
       end) subs ;;
    '(p, o, em, a) <- LookupWords e ants ;;
    Some (p + ps, o + os, em + es, a)
  end.

(** ... and with the goal edge (ff_klm.cc 361-369). *)
Definition Score (add_sos_eos : bool) (d : deriv) : option (Z * Z * Z) :=
  '(p, o, e, a) <- eval d ;; q <- FinalTraversalCost add_sos_eos a ;; Some (p + q, o, e).

End Feature.
End Model.

(** ** Building the feature's maps *)

(** vector::resize(n, x) when it grows *)
Definition grow {A : Type} (l : list A) (n : nat) (x : A) : list A := l ++ repeat x (n - length l).
(** l[i] = x for an index inside the vector *)
Fixpoint assign {A : Type} (l : list A) (i : nat) (x : A) : list A :=
  match l, i with
  | [], _ => []
  | _ :: l', O => x :: l'
  | y :: l', S i' => y :: assign l' i' x
  end.

(** ff_klm.cc 77-82: VMapper::Add for a word with the decoder's id [cdec_id] *)
Definition VMAdd (out : list word) (cdec_id : nat) (index : word) : list word :=
  assign (grow out (S cdec_id) 0%nat) cdec_id index.

(** ff_klm.cc 280-291; abort is [None].  The new size is (word + 10) * 1.1 in the code,
    rounded down from a double. *)
Definition AddWordToClassMapping (unk : Z) (m : list (Z * Z)) (w : nat) (cls emit : Z) : option (list (Z * Z)) :=
  let m1 := if Nat.leb (length m) w then grow m ((w + 10) * 11 / 10) (unk, 0) else m in
  match nth_error m1 w with
  | None => None
  | Some (c, _) => if negb (c =? unk) then None else Some (assign m1 w (cls, emit))
  end.

(** ff_klm.cc 267-277: lines of the class file *)
Fixpoint AddClassLines (unk : Z) (m : list (Z * Z)) (lines : list (nat * Z * Z)) : option (list (Z * Z)) :=
  match lines with
  | [] => Some m
  | (w, c, e) :: lines' => m1 <- AddWordToClassMapping unk m w c e ;; AddClassLines unk m1 lines'
  end.

(** ff_klm.cc 257-278 *)
Definition LoadWordClasses (unk : Z) (sos eos : nat) (lines : list (nat * Z * Z)) : option (list (Z * Z)) :=
  m1 <- AddWordToClassMapping unk [] sos (Z.of_nat sos) 0 ;;
  m2 <- AddWordToClassMapping unk m1 eos (Z.of_nat eos) 0 ;;
  AddClassLines unk m2 lines.

(** ff_klm.cc 231-255.  [vocab]: the words of the model in the order in which KenLM
    enumerates them, as the decoder's id and KenLM's index; [unk], [sos], [eos]: the
    decoder's ids of <unk>, <s> and </s>; [classes]: the lines of the class file if there
    is one.  A failed assert is [None]. *)
Definition LoadFeature (vocab : list (nat * word)) (unk sos eos : nat) (classes : option (list (nat * Z * Z))) : option feature :=
  let map := fold_left (fun out p => VMAdd out (fst p) (snd p)) vocab [] in
  let f0 := Feature 0%nat 0%nat (Z.of_nat sos) (Z.of_nat unk) map [] in
  let ksos := MapWord f0 (Z.of_nat sos) in
  let keos := MapWord f0 (Z.of_nat eos) in
  if orb (Nat.eqb ksos 0) (orb (Nat.eqb keos 0) (negb (Nat.eqb (MapWord f0 (Z.of_nat unk)) 0))) then None
  else
    cm <- (match classes with None => Some [] | Some lines => LoadWordClasses (Z.of_nat unk) sos eos lines end) ;;
    Some (Feature ksos keos (Z.of_nat sos) (Z.of_nat unk) map cm).
