(** Model of the extraction of rules from one occurrence of a source phrase
    (extractor/rule_extractor.cc, rule_extractor_helper.cc, target_phrase_extractor.cc,
    phrase.cc, phrase_builder.cc).  int is unbounded; the words of a sentence are the
    indexes of the vocabulary (vocabulary.cc 7-21), nonterminal number k is the symbol -k
    (23-29).  [None]: an access outside an array, or an iterator past the end read. *)
From Coq Require Import List ZArith QArith Bool.
From Verif Require Import Opt Fix.
Import ListNotations.
Open Scope Z_scope.
Open Scope opt_scope.

(** One sentence pair of the corpus and its word alignment (data_array.cc, alignment.cc). *)
Record sentence := { src : list Z; tgt : list Z; links : list (Z * Z) }.
(** The options of the extractor (rule_extractor.cc 19-49). *)
Record ropts := {
  o_span : Z;        (* max_rule_span *)
  o_gap : Z;         (* min_gap_size *)
  o_nonterms : Z;    (* max_nonterminals *)
  o_symbols : Z;     (* max_rule_symbols *)
  o_terminal : bool; (* require_aligned_terminal *)
  o_chunks : bool;   (* require_aligned_chunks *)
  o_tight : bool     (* require_tight_phrases *) }.
(** struct Extract (rule_extractor.h 29-39) *)
Record extract := { e_source : list Z; e_target : list Z; e_count : Q; e_align : list (Z * Z) }.

(** ** Phrases (phrase.cc 9-20, phrase_builder.cc 11-46) *)
Fixpoint var_pos (i : Z) (symbols : list Z) : list Z :=
  match symbols with [] => [] | s :: r => if 0 <=? s then var_pos (i + 1) r else i :: var_pos (i + 1) r end.
Definition GetChunkLen (symbols : list Z) (index : Z) : option Z :=
  let vp := var_pos 0 symbols in
  if size vp =? 0 then Some (size symbols)
  else if index =? 0 then get vp 0
  else if index =? size vp then l <- get vp (size vp - 1) ;; Some (size symbols - l - 1)
  else a <- get vp index ;; b <- get vp (index - 1) ;; Some (a - b - 1).
(** Extend, 24-46: the nonterminals are numbered anew *)
Fixpoint renumber (k : Z) (symbols : list Z) : Z * list Z :=
  match symbols with
  | [] => (k, [])
  | s :: r => if 0 <=? s then let '(k', r') := renumber k r in (k', s :: r')
              else let '(k', r') := renumber (k + 1) r in (k', - (k + 1) :: r')
  end.
Definition Extend (symbols : list Z) (start_x end_x : bool) : list Z :=
  let '(k, l) := renumber (b2z start_x) symbols in
  (if start_x then [-1] else []) ++ l ++ (if end_x then [- (k + 1)] else []).

(** A loop that moves a position while a test holds. *)
Fixpoint seek (fuel : nat) (step : Z) (more : Z -> option bool) (x : Z) : option Z :=
  match fuel with O => None | S f => b <- more x ;; if b then seek f step more (x + step) else Some x end.
(** Is either word without link? (the tests of the form low[a] == -1 || low[b] == -1) *)
Definition unaligned2 (low : list Z) (a b : Z) : option bool :=
  x <- get low a ;; if x =? -1 then Some true else y <- get low b ;; Some (y =? -1).

(** ** CheckAlignedTerminals (rule_extractor_helper.cc 54-79); an occurrence is the list
    of its chunks, start and length *)
Fixpoint chunk_aligned (low : list Z) (k : nat) (p : Z) : option bool :=
  match k with O => Some false | S k' => l <- get low p ;; if l =? -1 then chunk_aligned low k' (p + 1) else Some true end.
Fixpoint aligned_chunks (low : list Z) (start : Z) (occ : list (Z * Z)) : option Z :=
  match occ with
  | [] => Some 0
  | (m, len) :: r => b <- chunk_aligned low (Z.to_nat len) (m - start) ;; n <- aligned_chunks low start r ;; Some (b2z b + n)
  end.
Definition CheckAlignedTerminals (o : ropts) (low : list Z) (start : Z) (occ : list (Z * Z)) : option bool :=
  if negb (o_terminal o) then Some true
  else n <- aligned_chunks low start occ ;;
    Some (if n =? 0 then false else orb (negb (o_chunks o)) (n =? Z.of_nat (length occ))).
(** The gaps between the chunks (91-92, 292-296). *)
Fixpoint inner_gaps (start : Z) (occ : list (Z * Z)) : list (Z * Z) :=
  match occ with
  | (m, len) :: ((m', _) :: _) as r => (m + len - start, m' - start) :: inner_gaps start r
  | _ => []
  end.
(** CheckTightPhrases (81-100) *)
Fixpoint tight_gaps (low : list Z) (gaps : list (Z * Z)) : option bool :=
  match gaps with
  | [] => Some true
  | (a, b) :: r => u <- unaligned2 low a (b - 1) ;; if u then Some false else tight_gaps low r
  end.
Definition CheckTightPhrases (o : ropts) (low : list Z) (start : Z) (occ : list (Z * Z)) : option bool :=
  if negb (o_tight o) then Some true else tight_gaps low (inner_gaps start occ).

Definition fopts (o : ropts) (source_gap target_gap new_x : Z) (low high arbitrary : bool) : fix_opts :=
  {| max_rule_span := o_span o; min_source_gap_size := source_gap; min_target_gap_size := target_gap; max_new_x := new_x;
     allow_low_x := low; allow_high_x := high; allow_arbitrary_expansion := arbitrary |}.

Section Sentence.
Variable o : ropts.
Variable p : sentence.
Variable sp : spans.
Let ns := Z.of_nat (length (src p)).
Let nt := Z.of_nat (length (tgt p)).

(** ** GetGaps (266-330).  Some None: it returns false. *)
(** The target span of a gap that must be consistent as it stands (317-327; 304-314 and 320-330
    of rule_extractor.cc). *)
Definition gap_fix (g : Z * Z) : option (option (Z * Z)) :=
  r <- FindFixPoint (fopts o 0 0 0 false false false) sp ns nt (fst g) (snd g) (-1) (-1) (fst g) (snd g) ;;
  Some (if found r then Some (r_tl r, r_th r) else None).
Fixpoint gap_fixes (gs : list (Z * Z)) : option (option (list (Z * Z))) :=
  match gs with
  | [] => Some (Some [])
  | g :: r => t <- gap_fix g ;;
      match t with None => Some None | Some h => l <- gap_fixes r ;; Some (match l with None => None | Some hs => Some (h :: hs) end) end
  end.
(** Result: the source gaps, the target gaps, met_constraints. *)
Definition GetGaps (start : Z) (occ : list (Z * Z)) (spl sph bl bh num_symbols : Z) : option (option (list (Z * Z) * list (Z * Z) * bool)) :=
  (* 274-290; None: return false *)
  a <- (if bl <? spl then
          if o_symbols o <=? num_symbols then Some None
          else if o_tight o then u <- unaligned2 (s_low sp) bl (spl - 1) ;; Some (if u then None else Some ([(bl, spl)], num_symbols + 1, true))
          else Some (Some ([(bl, spl)], num_symbols + 1, true))
        else if o_tight o then l <- get (s_low sp) spl ;; Some (Some ([], num_symbols, negb (l =? -1)))
        else Some (Some ([], num_symbols, true))) ;;
  match a with
  | None => Some None
  | Some (front, num_symbols1, met1) =>
    (* 298-315 *)
    b <- (if sph <? bh then
            if o_symbols o <=? num_symbols1 then Some None
            else if o_tight o then u <- unaligned2 (s_low sp) sph (bh - 1) ;; Some (if u then None else Some ([(sph, bh)], met1))
            else Some (Some ([(sph, bh)], met1))
          else if o_tight o then l <- get (s_low sp) (sph - 1) ;; Some (Some ([], andb met1 (negb (l =? -1))))
          else Some (Some ([], met1))) ;;
    match b with
    | None => Some None
    | Some (back, met) =>
      let gs := front ++ inner_gaps start occ ++ back in
      t <- gap_fixes gs ;;
      Some (match t with None => None | Some hs => Some (gs, hs, met) end)
    end
  end.

(** ** GetSourceIndexes (347-360): position -> index of the symbol, newest first *)
Definition index := list (Z * Z).
Fixpoint index_chunk (k : nat) (pos num : Z) (m : index) : index :=
  match k with O => m | S k' => index_chunk k' (pos + 1) (num + 1) ((pos, num) :: m) end.
Fixpoint source_index (start : Z) (occ : list (Z * Z)) (num : Z) (m : index) : index :=
  match occ with
  | [] => m
  | (q, len) :: r => source_index start r (num + Z.max 0 len + 1) (index_chunk (Z.to_nat len) (q - start) num m)
  end.
Definition GetSourceIndexes (start : Z) (occ : list (Z * Z)) (starts_with_x : bool) : index := source_index start occ (b2z starts_with_x) [].
Definition find_index (m : index) (pos : Z) : option Z :=
  match find (fun e => fst e =? pos) m with Some e => Some (snd e) | None => None end.

(** ** ExtractPhrases (target_phrase_extractor.cc 36-95) *)
Definition zrange (lo hi : Z) : list Z := map (fun i => lo + Z.of_nat i) (seq 0 (Z.to_nat (hi + 1 - lo))).
(** GeneratePhrases, 141-155: every start and end of every chunk.  The loops over the two
    entries of one chunk are the two [flat_map]s, the vector subpatterns is the list. *)
Fixpoint generate (ranges : list (Z * Z)) (prev : option Z) : list (list Z) :=
  match ranges with
  | r0 :: r1 :: rest =>
      flat_map (fun a => flat_map (fun b => map (fun l => a :: b :: l) (generate rest (Some b))) (zrange (Z.max a (fst r1)) (snd r1)))
        (zrange (match prev with None => fst r0 | Some q => Z.max (fst r0) q end) (snd r0))
  | _ => [[]]
  end.
(** 111-124: the words of one chunk; state: the symbols so far and their indexes *)
Fixpoint chunk_symbols (k : nat) (j : Z) (st : list Z * index) : option (list Z * index) :=
  match k with
  | O => Some st
  | S k' => let '(symbols, m) := st in
      w <- get (tgt p) j ;; chunk_symbols k' (j + 1) (symbols ++ [w], (j, size symbols) :: m)
  end.
Fixpoint target_symbols (subpatterns order : list Z) (st : list Z * index) : option (list Z * index) :=
  match subpatterns with
  | a :: b :: r =>
      ' (symbols, m) <- chunk_symbols (Z.to_nat (b - a)) a st ;;
      match order with
      | [] => target_symbols r [] (symbols, m)
      | k :: ks => target_symbols r ks (symbols ++ [- (k + 1)], m)
      end
  | _ => Some st
  end.
(** 126-134 *)
Fixpoint phrase_links (ls : list (Z * Z)) (si ti : index) : option (list (Z * Z)) :=
  match ls with
  | [] => Some []
  | (s, t) :: r =>
      match find_index ti t with
      | None => phrase_links r si ti
      | Some b => a <- find_index si s ;; l <- phrase_links r si ti ;; Some ((a, b) :: l)
      end
  end.
(** 103-138; None inside: the rule is too wide *)
Definition phrase_of (order : list Z) (si : index) (subpatterns : list Z) : option (option (list Z * list (Z * Z))) :=
  if o_span o <? last subpatterns 0 - hd 0 subpatterns then Some None
  else ' (symbols, ti) <- target_symbols subpatterns order ([], []) ;;
       l <- phrase_links (links p) si ti ;; Some (Some (symbols, l)).
Fixpoint phrases_of (order : list Z) (si : index) (subs : list (list Z)) : option (list (list Z * list (Z * Z))) :=
  match subs with
  | [] => Some []
  | s :: r => a <- phrase_of order si s ;; l <- phrases_of order si r ;; Some (match a with None => l | Some x => x :: l end)
  end.
(** 44-58: the target phrase extended over words without link *)
Definition loose_low (lo hi : Z) : option Z :=
  if o_tight o then Some lo
  else seek (S (Z.to_nat lo)) (-1) (fun x => if andb (0 <? x) (hi - x <? o_span o) then l <- get (t_low sp) (x - 1) ;; Some (l =? -1) else Some false) lo.
Definition loose_high (lo hi : Z) : option Z :=
  if o_tight o then Some hi
  else seek (S (Z.to_nat (nt - hi))) 1 (fun x => if andb (x <? nt) (x - lo <? o_span o) then l <- get (t_low sp) x ;; Some (l =? -1) else Some false) hi.
(** 63-74: one gap *)
Definition loose_gap (xl xh : Z) (g : Z * Z) : option (Z * Z) :=
  if o_tight o then Some g
  else a <- seek (S (Z.to_nat (fst g - xl))) (-1) (fun x => if xl <? x then l <- get (t_low sp) (x - 1) ;; Some (l =? -1) else Some false) (fst g) ;;
       b <- seek (S (Z.to_nat (xh - snd g))) 1 (fun x => if x <? xh then l <- get (t_low sp) x ;; Some (l =? -1) else Some false) (snd g) ;;
       Some (a, b).
(** 60-87: the ranges of the ends around the gaps *)
Fixpoint gap_ranges (xl xh : Z) (gaps : list (Z * Z)) (order : list Z) : option (list (Z * Z)) :=
  match order with
  | [] => Some []
  | j :: r => g <- get_gap gaps j ;; h <- loose_gap xl xh g ;; l <- gap_ranges xl xh gaps r ;;
      Some ((fst h, fst g) :: (snd g, snd h) :: l)
  end.
Definition ExtractPhrases (gaps : list (Z * Z)) (lo hi : Z) (si : index) : option (list (list Z * list (Z * Z))) :=
  order <- GetGapOrder gaps ;;
  xl <- loose_low lo hi ;;
  xh <- loose_high lo hi ;;
  l <- gap_ranges xl xh gaps order ;;
  phrases_of order si (generate ((xl, lo) :: l ++ [(hi, xh)]) None).

(** ** AddExtracts (rule_extractor.cc 210-228) *)
Definition AddExtracts (source : list Z) (si : index) (gaps : list (Z * Z)) (lo hi : Z) : option (list extract) :=
  ts <- ExtractPhrases gaps lo hi si ;;
  Some (map (fun t => {| e_source := source; e_target := fst t; e_count := / inject_Z (Z.of_nat (length ts)); e_align := snd t |}) ts).

(** ** AddNonterminalExtremities (230-341) *)
(** 242, 243 read source_low before the position is known to lie in the sentence.
    [stray]: None: such a read is an error; Some f: it yields f. *)
Variable stray : option (Z -> Z).
Definition peek (low : list Z) (i : Z) : option Z :=
  match get low i with Some v => Some v | None => match stray with Some f => Some (f i) | None => None end end.
(** 248-263, 265-282: where the new nonterminals start and end; None: return *)
Definition left_x (bl : Z) (starts_with_x : bool) : option (option Z) :=
  if orb starts_with_x (bl <? o_gap o) then Some None
  else let x := bl - o_gap o in
       y <- (if o_tight o then seek (S (S (Z.to_nat x))) (-1) (fun x => if 0 <=? x then l <- get (s_low sp) x ;; Some (l =? -1) else Some false) x else Some x) ;;
       Some (if y <? 0 then None else Some y).
Definition right_x (bh : Z) (ends_with_x : bool) : option (option Z) :=
  if orb ends_with_x (ns <? bh + o_gap o) then Some None
  else let x := bh + o_gap o in
       y <- (if o_tight o then seek (S (S (Z.to_nat (ns - x)))) 1 (fun x => if x <=? ns then l <- get (s_low sp) (x - 1) ;; Some (l =? -1) else Some false) x else Some x) ;;
       Some (if ns <? y then None else Some y).
(** 303-317, 319-332; None: return *)
Definition new_gap (edge : Z) (g : Z * Z) : option (option (Z * Z)) :=
  u <- (if o_tight o then l <- get (s_low sp) edge ;; Some (l =? -1) else Some false) ;;
  if u then Some None else gap_fix g.
Definition AddNonterminalExtremities (start : Z) (occ : list (Z * Z)) (source : list Z) (bl bh : Z) (gaps : list (Z * Z))
    (starts_with_x ends_with_x left right : bool) : option (list extract) :=
  (* 240-246 *)
  loose <- (if o_tight o then
              a <- peek (s_low sp) (bl - b2z left) ;;
              if a =? -1 then Some true else b <- peek (s_low sp) (bh + b2z right - 1) ;; Some (b =? -1)
            else Some false) ;;
  if loose then Some [] else
  lx <- (if left then left_x bl starts_with_x else Some (Some bl)) ;;
  match lx with None => Some [] | Some xl =>
  rx <- (if right then right_x bh ends_with_x else Some (Some bh)) ;;
  match rx with None => Some [] | Some xh =>
  let n := b2z left + b2z right in
  if orb (o_span o <? xh - xl) (orb (o_nonterms o <? Z.of_nat (length gaps) + n) (o_symbols o <? size source + n)) then Some [] else
  r <- FindFixPoint (fopts o 1 1 n left right true) sp ns nt xl xh (-1) (-1) xl xh ;;
  if negb (found r) then Some [] else
  lg <- (if left then g <- new_gap (r_bl r) (r_bl r, bl) ;; Some (match g with None => None | Some h => Some [h] end) else Some (Some [])) ;;
  match lg with None => Some [] | Some front =>
  rg <- (if right then g <- new_gap (r_bh r - 1) (bh, r_bh r) ;; Some (match g with None => None | Some h => Some [h] end) else Some (Some [])) ;;
  match rg with None => Some [] | Some back =>
  AddExtracts (Extend source left right) (GetSourceIndexes start occ (orb left starts_with_x)) (front ++ gaps ++ back) (r_tl r) (r_th r)
  end end end end.

(** ** ExtractAlignments (124-208), after the spans of the links (130-134) *)
Fixpoint chunklens (phrase : list Z) (i : Z) (matching : list Z) : option (list (Z * Z)) :=
  match matching with
  | [] => Some []
  | m :: r => len <- GetChunkLen phrase i ;; l <- chunklens phrase (i + 1) r ;; Some ((m, len) :: l)
  end.
Definition extract_alignments (start : Z) (phrase matching : list Z) : option (list extract) :=
  occ <- chunklens phrase 0 matching ;;
  c1 <- CheckAlignedTerminals o (s_low sp) start occ ;;
  if negb c1 then Some [] else
  c2 <- CheckTightPhrases o (s_low sp) start occ ;;
  if negb c2 then Some [] else
  m0 <- get matching 0 ;;
  let spl := m0 - start in
  let sph := fst (last occ (0, 0)) + snd (last occ (0, 0)) - start in
  r <- FindFixPoint (fopts o (o_gap o) 0 (o_nonterms o - size matching + 1) true true false) sp ns nt spl sph (-1) (-1) (-1) (-1) ;;
  if negb (found r) then Some [] else
  let bl := r_bl r in
  let bh := r_bh r in
  g <- GetGaps start occ spl sph bl bh (size phrase) ;;
  match g with None => Some [] | Some (source_gaps, target_gaps, met) =>
  let starts_with_x := negb (bl =? spl) in
  let ends_with_x := negb (bh =? sph) in
  let source := Extend phrase starts_with_x ends_with_x in
  base <- (if met then AddExtracts source (GetSourceIndexes start occ starts_with_x) target_gaps (r_tl r) (r_th r) else Some []) ;;
  if orb (o_nonterms o <=? Z.of_nat (length source_gaps)) (orb (o_symbols o <=? size source) (o_span o <? bh - bl + o_gap o)) then Some base
  else
  let ext := AddNonterminalExtremities start occ source bl bh target_gaps starts_with_x ends_with_x in
  e1 <- ext false true ;; e2 <- ext true false ;; e3 <- ext true true ;;
  Some (base ++ e1 ++ e2 ++ e3)
  end.
End Sentence.

(** ExtractAlignments with the spans of the links; [start]: where the sentence starts in
    the source data *)
Definition ExtractAlignments (stray : option (Z -> Z)) (o : ropts) (p : sentence) (start : Z) (phrase matching : list Z) : option (list extract) :=
  sp <- GetLinksSpans (length (src p)) (length (tgt p)) (links p) ;;
  extract_alignments o p sp stray start phrase matching.
