(** The n-gram indicator features of the decoder (decoder/ff_ngrams.cc).

    Words are integers as in the rules, 0 standing for "no word".  What is left open:
    the cluster of a word ([cls], MapToClusterIfNecessary, ff_ngrams.cc 216-220) and the
    identity of the feature of an n-gram ([name], lines 230-241: the name is made of
    constant parts and of the words, and the tree of identities caches it by the words).
    Feature vectors are functions from identities to integers (the code uses doubles;
    all values are sums of 1 and -100).  The state's memory is a record; whether unused
    bytes of it are initialised is not modelled. *)
From Coq Require Import List ZArith Bool.
Import ListNotations.
From Verif Require Import Opt Lm.
Open Scope opt_scope.
Open Scope Z_scope.

(** SparseVector: zero, set_value, operator+= *)
Notation fvec := (Z -> Z) (only parsing).
Definition vzero : fvec := fun _ => 0.
Definition vset (p : fvec) (i v : Z) : fvec := fun j => if j =? i then v else p j.
Definition vplus (p q : fvec) : fvec := fun j => p j + q j.

(** What is kept for a span (lines 161-214): the last order-1 words, the words not yet
    scored, and the two flags. *)
Record span := Span { remnant : list Z; unscored : list Z; full_context : bool; eos_on_right : bool }.

Section Ngrams.
Variable order : nat.
Variables kSOS kEOS malformed : Z.
Variable cls : Z -> Z.
Variable name : list Z -> Z.

(** State<5>(), lines 22-24: no words.  Position 0 is the oldest word. *)
Definition no_words : list Z := repeat 0 (order - 1).

(** BeginSentenceState, lines 174-178: [state.state[0] = kSOS_].  With order 1 there is no
    position 0 among the order-1 that are used. *)
Definition BeginSentenceState : list Z :=
  match no_words with [] => [] | _ :: s => kSOS :: s end.

(** State(other, order, extend), lines 38-43 *)
Definition Extend (s : list Z) (w : Z) : list Z :=
  match s with [] => [] | _ :: s' => s' ++ [w] end.

(** FireFeatures, lines 222-249: [ctx] is the rest of the state, newest word first; [buf]
    the words so far, oldest first.  The name of an n-gram uses prefixes_[n], a vector of
    six entries (lines 69-74); reading beyond is undefined. *)
Fixpoint fire (ctx : list Z) (buf : list Z) (curword : Z) (p : fvec) : option fvec :=
  if curword =? 0 then Some p
  else
    let buf := curword :: buf in
    if Nat.ltb 5 (length buf) then None
    else
      let p := vset p (name buf) 1 in
      match ctx with [] => Some p | c :: ctx' => fire ctx' buf c p end.
Definition FireFeatures (s : list Z) (cur : Z) (p : fvec) : option fvec := fire (rev s) [] cur p.

(** The variables of LookupWords (lines 253-259) and what it has written *)
Record work := Work { st : list Z; num_scored : nat; saw_eos : bool; has_some_history : bool; context_complete : bool;
                      feats : fvec; est_feats : fvec; out_unscored : list Z }.
Definition start : work := Work no_words 0 false false false vzero vzero [].

(** One word: lines 265-294 for a word of a constituent ([bad] = 1), lines 302-331 for a
    word of the rule ([bad] = -100).  [keep] says whether there is a remnant to fill;
    without it est_feats is a null pointer (line 350).  SetIthUnscoredWord writes into
    order-1 places. *)
Definition step (keep : bool) (bad : Z) (k : work) (cur_word : Z) : option work :=
  let ns0 := num_scored k in
  '(p, s, ns, eos, cc) <-
    (if cur_word =? kSOS then
       if has_some_history k then Some (vset vzero malformed bad, BeginSentenceState, ns0, saw_eos k, true)
       else Some (vzero, BeginSentenceState, (order - 2)%nat, saw_eos k, context_complete k)
     else
       p <- FireFeatures (st k) cur_word vzero ;;
       Some ((if saw_eos k then vset p malformed 1 else p), Extend (st k) cur_word, ns0, cur_word =? kEOS, context_complete k)) ;;
  let ns := S ns in
  let cc := cc || Nat.leb order ns in
  if cc then Some (Work s ns eos true cc (vplus (feats k) p) (est_feats k) (out_unscored k))
  else if keep then
    if Nat.ltb (length (out_unscored k)) (order - 1) then
      Some (Work s ns eos true cc (feats k) (vplus (est_feats k) p) (out_unscored k ++ [cur_word]))
    else None
  else None.

Fixpoint steps (keep : bool) (bad : Z) (k : work) (ws : list Z) : option work :=
  match ws with [] => Some k | w :: ws' => k <- step keep bad k w ;; steps keep bad k ws' end.

(** One symbol of the target side (lines 260-333) *)
Definition symbol (keep : bool) (ants : list span) (k : work) (x : Z) : option work :=
  if x <? 1 then
    a <- nth_error ants (Z.to_nat (- x)) ;;
    k <- steps keep 1 k (unscored a) ;;
    let k := Work (st k) (num_scored k) (eos_on_right a) (has_some_history k) (context_complete k) (feats k) (est_feats k) (out_unscored k) in
    if full_context a then Some (Work (remnant a) (num_scored k) (saw_eos k) (has_some_history k) true (feats k) (est_feats k) (out_unscored k))
    else Some k
  else step keep (-100) k (cls x).

Fixpoint symbols (keep : bool) (ants : list span) (k : work) (e : list Z) : option work :=
  match e with [] => Some k | x :: e' => k <- symbol keep ants k x ;; symbols keep ants k e' end.

(** LookupWords, lines 252-340: the features of the edge and the span it leaves.  (The
    estimates guide the search only and are left out of the result.) *)
Definition LookupWords (e : list Z) (ants : list span) : option (fvec * span) :=
  k <- symbols true ants start e ;;
  Some (feats k, Span (st k) (out_unscored k) (context_complete k || Nat.leb order (num_scored k)) (saw_eos k)).

(** FinalTraversal, lines 344-363; the rule is [1] [2] </s> (line 431), whose last word
    goes through the clusters like any other. *)
Definition FinalTraversal (explicit_markers : bool) (eos : Z) (a : span) : option fvec :=
  if explicit_markers then Some vzero
  else
    let dummy := Span BeginSentenceState [] true false in
    k <- symbols false [dummy; a] start [0; -1; eos] ;; Some (feats k).

(** The feature values of the edges of a derivation, added up, and the span of its root *)
Fixpoint eval (d : deriv) : option (fvec * span) :=
  match d with
  | Apply e subs =>
    '(fs, ants) <- (fix evals (ds : list deriv) : option (fvec * list span) :=
       match ds with
       | [] => Some (vzero, [])
       | d1 :: ds' => '(f1, a1) <- eval d1 ;; '(f2, as2) <- evals ds' ;; Some (vplus f1 f2, a1 :: as2)
       end) subs ;;
    '(f, a) <- LookupWords e ants ;;
    Some (vplus f fs, a)
  end.

Definition Features (explicit_markers : bool) (eos : Z) (d : deriv) : option fvec :=
  '(f, a) <- eval d ;; g <- FinalTraversal explicit_markers eos a ;; Some (vplus f g).

End Ngrams.
