(** Model of extractor/suffix_array.cc 27-218: construction by bucket sort and prefix
    doubling, the LCP array, and lookup.  int is unbounded here: texts of 2^30 words
    and more are not modelled.  [data] are the word ids of the corpus, [voc] the size
    of the vocabulary (ids 0 .. voc-1, 0 is NULL_WORD).  [rnd k] is the k-th result of
    rand(); the counter [k] is part of the state. *)
From Coq Require Import List ZArith.
From Verif Require Import Opt.
Import ListNotations.
Open Scope Z_scope.
Open Scope opt_scope.

Definition NULL_WORD : Z := 0.

(** ** InitialBucketSort (54-75): suffix_array, word_start, groups *)
(** 56-58 *)
Definition bs_count (groups : list Z) (ws : list Z) : option (list Z) :=
  for_up (length groups) 0 (fun i ws => w <- get groups i ;; c <- get ws w ;; put ws w (c + 1)) ws.
(** 60-62 *)
Definition bs_sum (ws : list Z) : option (list Z) :=
  for_up (length ws - 1) 1 (fun i ws => a <- get ws i ;; b <- get ws (i - 1) ;; put ws i (a + b)) ws.
(** 64-67 *)
Definition bs_place (groups : list Z) (st : list Z * list Z) : option (list Z * list Z) :=
  for_up (length groups) 0 (fun i st =>
    let '(sa, ws) := st in
    w <- get groups i ;; c <- get ws w ;; ws' <- put ws w (c - 1) ;;
    sa' <- put sa (c - 1) i ;; Some (sa', ws')) st.
(** 69-71 *)
Definition bs_groups (n : nat) (ws : list Z) (groups : list Z) : option (list Z) :=
  for_up n 0 (fun i g => w <- get g i ;; c <- get ws (w + 1) ;; put g i (c - 1)) groups.
Definition InitialBucketSort (sa ws groups : list Z) : option (list Z * list Z * list Z) :=
  ws1 <- bs_count groups ws ;;
  ws2 <- bs_sum ws1 ;;
  ' (sa', ws3) <- bs_place groups (sa, ws2) ;;
  g' <- bs_groups (length sa') ws3 groups ;;
  Some (sa', ws3, g').

(** ** TernaryQuicksort (99-137) *)
Record qs := { qsa : list Z; qgr : list Z; qk : nat }.
Definition set_sa (s : qs) (a : list Z) : qs := {| qsa := a; qgr := qgr s; qk := qk s |}.
(** 107 *)
Definition swap (a : list Z) (i j : Z) : option (list Z) :=
  x <- get a i ;; y <- get a j ;; a1 <- put a i y ;; put a1 j x.
(** 109-123: the array, mid_left, mid_right *)
Definition part_step (g : list Z) (step pivot_value : Z) (i : Z) (st : list Z * Z * Z) : option (list Z * Z * Z) :=
  let '(a, ml, mr) := st in
  x <- get a i ;; key <- get g (x + step) ;;
  if key <? pivot_value then
    y <- get a (mr + 1) ;; a1 <- put a i y ;;
    z <- get a1 ml ;; a2 <- put a1 (mr + 1) z ;;
    a3 <- put a2 ml x ;;
    Some (a3, ml + 1, mr + 1)
  else if key =? pivot_value then
    y <- get a (mr + 1) ;; a1 <- put a i y ;; a2 <- put a1 (mr + 1) x ;;
    Some (a2, ml, mr + 1)
  else Some (a, ml, mr).
Definition partition (a g : list Z) (left right step pivot_value : Z) : option (list Z * Z * Z) :=
  for_up (Z.to_nat (right - left)) (left + 1) (part_step g step pivot_value) (a, left, left).
(** 131-133 *)
Definition set_groups (a g : list Z) (ml mr : Z) : option (list Z) :=
  for_up (Z.to_nat (mr - ml + 1)) ml (fun i g => x <- get a i ;; put g x mr) g.
(** 127-134 *)
Definition close_mid (s : qs) (ml mr : Z) : option qs :=
  if ml =? mr then
    x <- get (qsa s) ml ;; g <- put (qgr s) x ml ;; a <- put (qsa s) ml (-1) ;;
    Some {| qsa := a; qgr := g; qk := qk s |}
  else g <- set_groups (qsa s) (qgr s) ml mr ;; Some {| qsa := qsa s; qgr := g; qk := qk s |}.
(** 99-137; [fuel] bounds the recursion depth *)
Fixpoint TernaryQuicksort (rnd : nat -> N) (fuel : nat) (left right step : Z) (s : qs) : option qs :=
  if right <? left then Some s
  else
    match fuel with
    | O => None
    | S f =>
      let pivot := left + Z.of_N (rnd (qk s)) mod (right - left + 1) in
      x <- get (qsa s) pivot ;;
      pv <- get (qgr s) (x + step) ;;
      a <- swap (qsa s) pivot left ;;
      ' (a', ml, mr) <- partition a (qgr s) left right step pv ;;
      s1 <- TernaryQuicksort rnd f left (ml - 1) step {| qsa := a'; qgr := qgr s; qk := S (qk s) |} ;;
      s2 <- close_mid s1 ml mr ;;
      TernaryQuicksort rnd f (mr + 1) right step s2
    end.

(** ** PrefixDoublingSort (77-97) *)
(** 82-94 *)
Fixpoint ds_pass (rnd : nat -> N) (fuel : nat) (step : Z) (i combined : Z) (s : qs) : option qs :=
  if size (qsa s) <=? i then Some s
  else
    match fuel with
    | O => None
    | S f =>
      x <- get (qsa s) i ;;
      if x <? 0 then
        let skip := - x in
        let combined' := combined + skip in
        let i' := i + skip in
        a <- put (qsa s) (i' - combined') (- combined') ;;
        ds_pass rnd f step i' combined' (set_sa s a)
      else
        j <- get (qgr s) x ;;
        s' <- TernaryQuicksort rnd (length (qsa s)) i j step s ;;
        ds_pass rnd f step (j + 1) 0 s'
    end.
(** 78-96 *)
Fixpoint PrefixDoublingSort (rnd : nat -> N) (fuel : nat) (step : Z) (s : qs) : option qs :=
  x <- get (qsa s) 0 ;;
  if x =? - size (qsa s) then Some s
  else
    match fuel with
    | O => None
    | S f => s' <- ds_pass rnd (length (qsa s)) step 0 0 s ;; PrefixDoublingSort rnd f (step * 2) s'
    end.

(** ** BuildSuffixArray (27-52) *)
(** 36-44 *)
Definition mark_sorted (ws : list Z) (sa : list Z) : option (list Z) :=
  r <- for_up (length ws - 1) 1 (fun i st =>
    let '(sa, combined) := st in
    b <- get ws i ;; a <- get ws (i - 1) ;;
    if b - a =? 1 then
      sa' <- put sa (b - (combined + 1)) (- (combined + 1)) ;; Some (sa', combined + 1)
    else Some (sa, 0)) (sa, 0) ;;
  Some (fst r).
(** 49-51 *)
Definition finalize (g : list Z) (sa : list Z) : option (list Z) :=
  for_up (length g) 0 (fun i sa => r <- get g i ;; put sa r i) sa.
(** The suffix array and word_start. *)
Definition BuildSuffixArray (rnd : nat -> N) (voc : nat) (data : list Z) : option (list Z * list Z) :=
  let groups := data ++ [NULL_WORD] in
  ' (sa, ws, g) <- InitialBucketSort (repeat 0 (length groups)) (repeat 0 (voc + 1)) groups ;;
  sa1 <- mark_sorted ws sa ;;
  s <- PrefixDoublingSort rnd (length groups + 1) 1 {| qsa := sa1; qgr := g; qk := 0 |} ;;
  sa2 <- finalize (qgr s) (qsa s) ;;
  Some (sa2, ws).

(** ** BuildLCPArray (139-174) *)
(** 147-149 *)
Definition lcp_rank (sa : list Z) : option (list Z) :=
  for_up (length sa) 0 (fun i rank => s <- get sa i ;; put rank s i) (repeat 0 (length sa)).
(** 157-160 *)
Fixpoint extend (fuel : nat) (data : list Z) (i j len : Z) : option Z :=
  if andb (i + len <? size data) (j + len <? size data) then
    x <- get data (i + len) ;; y <- get data (j + len) ;;
    if x =? y then match fuel with O => None | S f => extend f data i j (len + 1) end else Some len
  else Some len.
(** 152-167 *)
Definition lcp_step (data sa rank : list Z) (i : Z) (st : list Z * Z) : option (list Z * Z) :=
  let '(lcp, len) := st in
  r <- get rank i ;;
  ' (lcp', len') <-
    (if r =? 0 then l <- put lcp r (-1) ;; Some (l, len)
     else
       j <- get sa (r - 1) ;;
       len1 <- extend (length data) data i j len ;;
       l <- put lcp r len1 ;; Some (l, len1)) ;;
  Some (lcp', if 0 <? len' then len' - 1 else len').
Definition BuildLCPArray (data sa : list Z) : option (list Z) :=
  rank <- lcp_rank sa ;;
  r <- for_up (length sa) 0 (lcp_step data sa rank) (repeat 0 (length sa), 0) ;;
  Some (fst r).

(** ** Lookup (188-218); an unknown word has id -1 *)
(** 204-218 *)
Fixpoint LookupRangeStart (fuel : nat) (data sa : list Z) (low high word offset result : Z) : option Z :=
  if low <? high then
    match fuel with
    | O => None
    | S f =>
      let middle := low + (high - low) / 2 in
      s <- get sa middle ;;
      less <- (if size data <=? s + offset then Some true else x <- get data (s + offset) ;; Some (x <? word)) ;;
      if (less : bool) then LookupRangeStart f data sa (middle + 1) high word offset result
      else LookupRangeStart f data sa low middle word offset middle
    end
  else Some result.
(** 188-202 *)
Definition Lookup (data sa ws : list Z) (low high word offset : Z) : option (Z * Z) :=
  if word =? -1 then Some (0, 0)
  else if offset =? 0 then a <- get ws word ;; b <- get ws (word + 1) ;; Some (a, b)
  else
    a <- LookupRangeStart (length sa) data sa low high word offset high ;;
    b <- LookupRangeStart (length sa) data sa low high (word + 1) offset high ;;
    Some (a, b).

(** ** MatchingsFinder::Find (matchings_finder.cc 15-23) *)
Definition Find (data sa ws : list Z) (loc : Z * Z) (word offset : Z) : option (Z * Z) :=
  let '(low, high) := if andb (fst loc =? -1) (snd loc =? -1) then (0, size sa) else loc in
  Lookup data sa ws low high word offset.
(** A phrase looked up word by word from the default location (-1, -1), as
    rule_factory.cc 172-176 does while walking down the trie. *)
Fixpoint find_words (data sa ws : list Z) (loc : Z * Z) (offset : Z) (w : list Z) : option (Z * Z) :=
  match w with
  | [] => Some loc
  | x :: r => l <- Find data sa ws loc x offset ;; find_words data sa ws l (offset + 1) r
  end.
Definition find_phrase (data sa ws w : list Z) : option (Z * Z) := find_words data sa ws (-1, -1) 0 w.
