(** Model of TERScorerImpl (mteval/ns_ter_impl.h 13-46, ns_ter_impl.cc 44-369) and of
    TERMetric::ComputeSufficientStatistics (mteval/ns_ter.cc 33-62).

    Words are integers.  [None] is an access outside a vector, a failed assertion, or
    a loop that has not ended within [fuel] rounds.  Costs are natural numbers; all
    costs in the code are small whole numbers held in float. *)
From Coq Require Import List Arith ZArith Bool.
Import ListNotations.
Open Scope nat_scope.

Definition bind {A B : Type} (x : option A) (f : A -> option B) : option B := match x with Some a => f a | None => None end.
Declare Scope ter_scope.
Notation "x <- e ;; f" := (bind e (fun x => f)) (at level 61, e at next level, right associativity) : ter_scope.
Open Scope ter_scope.

(** ns_ter_impl.h 13-46: begin, end and moveto packed in 10, 10 and 11 bits *)
Definition set_begin (d b : Z) : Z := Z.lor (Z.land d 0xfffffc00) (Z.land b 0x3ff).
Definition set_end (d e : Z) : Z := Z.lor (Z.land d 0xfff003ff) (Z.shiftl (Z.land e 0x3ff) 10).
Definition set_moveto (d m : Z) : Z :=
  let m' := if (m <? 0)%Z then (- m + 1024)%Z else m in
  Z.lor (Z.land d 0xfffff) (Z.shiftl (Z.land m' 0x7ff) 20).
Definition Shift (b e m : Z) : Z := set_moveto (set_end (set_begin 0 b) e) m.
Definition get_begin (d : Z) : Z := Z.land d 0x3ff.
Definition get_end (d : Z) : Z := Z.land (Z.shiftr d 10) 0x3ff.
Definition get_moveto (d : Z) : Z :=
  let m := Z.land (Z.shiftr d 20) 0x7ff in if (1024 <? m)%Z then (- (m - 1024))%Z else m.

(** ns_ter_impl.h 51 *)
Inductive trans := MATCH | SUBSTITUTION | INSERTION | DELETION.

(** ns_ter_impl.cc 29-30 *)
Definition MAX_SHIFT_SIZE : nat := 10.
Definition MAX_SHIFT_DIST : Z := 50.

(** ** MinimumEditDistance (44-108).  The matrices cmat and bmat are one list of rows
    of pairs; every cell is written once, row by row, left to right. *)
(** 57-77 *)
Definition med_cell (hw rw : Z) (diag up lft : nat) : nat * trans :=
  let '(c, b) := if (rw =? hw)%Z then (diag, MATCH) else (diag + 1, SUBSTITUTION) in
  let '(c, b) := if up + 1 <? c then (up + 1, INSERTION) else (c, b) in
  if lft + 1 <? c then (lft + 1, DELETION) else (c, b).
(** 56-78: the cells of a row after the first *)
Fixpoint med_row (hw : Z) (ref : list Z) (prev : list (nat * trans)) (lft : nat) : list (nat * trans) :=
  match ref, prev with
  | rw :: ref', d :: ((u :: _) as prev') =>
    let c := med_cell hw rw (fst d) (fst u) lft in c :: med_row hw ref' prev' (fst c)
  | _, _ => []
  end.
(** 54-79 *)
Fixpoint med_rows (hyp ref : list Z) (prev : list (nat * trans)) (i : nat) : list (list (nat * trans)) :=
  match hyp with
  | [] => []
  | hw :: hyp' => let row := (i, MATCH) :: med_row hw ref prev i in row :: med_rows hyp' ref row (S i)
  end.
(** 48-53 *)
Definition med_matrix (hyp ref : list Z) : list (list (nat * trans)) :=
  let row0 := map (fun j => (j, MATCH)) (seq 0 (length ref + 1)) in row0 :: med_rows hyp ref row0 1.
Definition cell (mat : list (list (nat * trans))) (i j : nat) : option (nat * trans) := row <- nth_error mat i ;; nth_error row j.
(** 82-106; the path is built from its end, which is the effect of push_back and reverse *)
Fixpoint med_trace (fuel : nat) (mat : list (list (nat * trans))) (i j : nat) (path : list trans) : option (list trans) :=
  match fuel, i, j with
  | _, O, O => Some path
  | O, _, _ => None
  | S f, S i', O => med_trace f mat i' 0 (INSERTION :: path)
  | S f, O, S j' => med_trace f mat 0 j' (DELETION :: path)
  | S f, S i', S j' =>
    c <- cell mat i j ;;
    match snd c with
    | SUBSTITUTION => med_trace f mat i' j' (SUBSTITUTION :: path)
    | MATCH => med_trace f mat i' j' (MATCH :: path)
    | INSERTION => med_trace f mat i' j (INSERTION :: path)
    | DELETION => med_trace f mat i j' (DELETION :: path)
    end
  end.
(** 44-108 *)
Definition MinimumEditDistance (hyp ref : list Z) : option (nat * list trans) :=
  let mat := med_matrix hyp ref in
  path <- med_trace (length hyp + length ref) mat (length hyp) (length ref) [] ;;
  c <- cell mat (length hyp) (length ref) ;;
  Some (fst c, path).

(** ** BuildWordMatches (110-127): n-grams of the reference made of words that also
    are in the hypothesis, with their positions *)
Definition nmap : Type := list (list Z * list nat).
Fixpoint set_insert (x : nat) (l : list nat) : list nat :=
  match l with [] => [x] | y :: r => if x <? y then x :: l else if x =? y then l else y :: set_insert x r end.
Definition same (u v : list Z) : bool := if list_eq_dec Z.eq_dec u v then true else false.
Fixpoint nfind (m : nmap) (cp : list Z) : option (list nat) :=
  match m with [] => None | (k, s) :: r => if same k cp then Some s else nfind r cp end.
Fixpoint ninsert (m : nmap) (cp : list Z) (start : nat) : nmap :=
  match m with
  | [] => [(cp, [start])]
  | (k, s) :: r => if same k cp then (k, set_insert start s) :: r else (k, s) :: ninsert r cp start
  end.
(** 121-125 *)
Fixpoint grams (both : Z -> bool) (k : nat) (suffix : list Z) (first : bool) (cp : list Z) (start : nat) (m : nmap) : nmap :=
  match k, suffix with
  | S k', w :: rest =>
    if negb first && negb (both w) then m
    else grams both k' rest false (cp ++ [w]) start (ninsert m (cp ++ [w]) start)
  | _, _ => m
  end.
(** 110-127 *)
Definition BuildWordMatches (hyp ref : list Z) : nmap :=
  let both w := existsb (Z.eqb w) ref && existsb (Z.eqb w) hyp in
  fold_left (fun m start =>
    match skipn start ref with
    | w :: _ => if both w then grams both MAX_SHIFT_SIZE (skipn start ref) true [] start m else m
    | [] => m
    end) (seq 0 (length ref)) [].

(** ** PerformShift (129-176) *)
(** for (i = lo; i <= hi; ++i) out->push_back(in[i]) *)
Definition copy (l : list Z) (lo hi : Z) : option (list Z) :=
  if (hi <? lo)%Z then Some []
  else if (lo <? 0)%Z || (Z.of_nat (length l) <=? hi)%Z then None
  else Some (firstn (Z.to_nat (hi - lo + 1)) (skipn (Z.to_nat lo) l)).
Definition cat4 (a b c d : option (list Z)) : option (list Z) := x <- a ;; y <- b ;; z <- c ;; t <- d ;; Some (x ++ y ++ z ++ t).
Definition PerformShift (l : list Z) (start end_ moveto : Z) : option (list Z) :=
  let last := (Z.of_nat (length l) - 1)%Z in
  out <- (if (moveto =? -1)%Z then cat4 (copy l start end_) (copy l 0 (start - 1)) (copy l (end_ + 1) last) (Some [])
          else if (moveto <? start)%Z then
            cat4 (copy l 0 moveto) (copy l start end_) (copy l (moveto + 1) (start - 1)) (copy l (end_ + 1) last)
          else if (end_ <? moveto)%Z then
            cat4 (copy l 0 (start - 1)) (copy l (end_ + 1) moveto) (copy l start end_) (copy l (moveto + 1) last)
          else
            cat4 (copy l 0 (start - 1)) (copy l (end_ + 1) (Z.min last (end_ + (moveto - start))))
                 (copy l start end_) (copy l (end_ + (moveto - start) + 1) last)) ;;
  if length out =? length l then Some out else None.

(** ** The alignment (246-272): errors in hypothesis and reference, and for every
    reference word the hypothesis position before or at which it stands *)
Fixpoint path_info (path : list trans) (hpos : Z) : list bool * list bool * list Z :=
  match path with
  | [] => ([], [], [])
  | t :: r =>
    match t with
    | MATCH => let '(h, e, a) := path_info r (hpos + 1) in (false :: h, false :: e, (hpos + 1)%Z :: a)
    | SUBSTITUTION => let '(h, e, a) := path_info r (hpos + 1) in (true :: h, true :: e, (hpos + 1)%Z :: a)
    | INSERTION => let '(h, e, a) := path_info r (hpos + 1) in (true :: h, e, a)
    | DELETION => let '(h, e, a) := path_info r hpos in (h, true :: e, hpos :: a)
    end
  end.

(** ** GetAllPossibleShifts (178-236) *)
(** for (i = from; k times && !any; ++i) any = v[i] *)
Fixpoint any_true (v : list bool) (from k : nat) : option bool :=
  match k with
  | O => Some false
  | S k' => x <- nth_error v from ;; if x then Some true else any_true v (S from) k'
  end.
(** 189-198 *)
Fixpoint any_move (ralign : list Z) (start : Z) (starts : list nat) : option bool :=
  match starts with
  | [] => Some false
  | mv :: r =>
    rm <- nth_error ralign mv ;;
    if negb (start =? rm)%Z && (rm - start <? MAX_SHIFT_DIST)%Z && (start - rm - 1 <? MAX_SHIFT_DIST)%Z then Some true
    else any_move ralign start r
  end.
(** 228-232 *)
Fixpoint offsets (ralign : list Z) (start end_ mv : nat) (rm : Z) (roff k : nat) : option (list Z) :=
  match k with
  | O => Some []
  | S k' =>
    rmr <- nth_error ralign (mv + roff) ;;
    rest <- offsets ralign start end_ mv rm (S roff) k' ;;
    Some (if negb (Z.of_nat start =? rmr)%Z && ((roff =? 0) || negb (rmr =? rm)%Z)
          then Shift (Z.of_nat start) (Z.of_nat end_) (Z.of_nat (mv + roff)) :: rest else rest)
  end.
(** 215-233: whether some position qualifies, and the shifts found *)
Fixpoint moves (ralign : list Z) (rerr : list bool) (start end_ : nat) (starts : list nat) : option (bool * list Z) :=
  match starts with
  | [] => Some (false, [])
  | mv :: r =>
    rm <- nth_error ralign mv ;;
    if negb (rm =? Z.of_nat start)%Z && ((rm <? Z.of_nat start)%Z || (Z.of_nat end_ <? rm)%Z)
       && (rm - Z.of_nat start <=? MAX_SHIFT_DIST)%Z && (Z.of_nat start - rm - 1 <=? MAX_SHIFT_DIST)%Z then
      any <- any_true rerr mv (end_ - start + 1) ;;
      new <- (if any then offsets ralign start end_ mv rm 0 (end_ - start + 1) else Some []) ;;
      rest <- moves ralign rerr start end_ r ;;
      Some (true, new ++ snd rest)
    else moves ralign rerr start end_ r
  end.
(** several push_back on shifts[i] *)
Fixpoint add_at (sh : list (list Z)) (i : nat) (new : list Z) : option (list (list Z)) :=
  match sh, i with
  | [], _ => None
  | s :: r, O => Some ((s ++ new) :: r)
  | s :: r, S i' => option_map (cons s) (add_at r i' new)
  end.
(** 201-234 *)
Fixpoint ends (hyp : list Z) (nm : nmap) (ralign : list Z) (herr rerr : list bool) (start : nat)
    (k end_ : nat) (cp : list Z) (sh : list (list Z)) : option (list (list Z)) :=
  match k with
  | O => Some sh
  | S k' =>
    if end_ <? length hyp then
      w <- nth_error hyp end_ ;;
      match nfind nm (cp ++ [w]) with
      | None => Some sh
      | Some starts =>
        any <- any_true herr start (end_ - start + 1) ;;
        if negb any then ends hyp nm ralign herr rerr start k' (S end_) (cp ++ [w]) sh
        else
          r <- moves ralign rerr start end_ starts ;;
          sh' <- add_at sh (end_ - start) (snd r) ;;
          if fst r then ends hyp nm ralign herr rerr start k' (S end_) (cp ++ [w]) sh' else Some sh'
      end
    else Some sh
  end.
(** 185-235, min_size = 1 *)
Definition shifts_from (hyp : list Z) (nm : nmap) (ralign : list Z) (herr rerr : list bool)
    (sh : option (list (list Z))) (start : nat) : option (list (list Z)) :=
  s <- sh ;;
  w <- nth_error hyp start ;;
  match nfind nm [w] with
  | None => Some s
  | Some starts =>
    ok <- any_move ralign (Z.of_nat start) starts ;;
    if ok then ends hyp nm ralign herr rerr start MAX_SHIFT_SIZE start [] s else Some s
  end.
Definition GetAllPossibleShifts (hyp : list Z) (nm : nmap) (ralign : list Z) (herr rerr : list bool) : option (list (list Z)) :=
  fold_left (shifts_from hyp nm ralign herr rerr) (seq 0 (length hyp)) (Some (repeat [] (MAX_SHIFT_SIZE + 1))).

(** ** CalculateBestShift (238-322) *)
Record best := { b_cost : nat; b_err : nat; b_new : option (list Z * list trans) }.
(** 297-299, 302-304 *)
Definition hopeless (curerr i : nat) (b : best) : bool :=
  let curfix := (Z.of_nat curerr - Z.of_nat (b_cost b + b_err b))%Z in
  let maxfix := (2 * (1 + Z.of_nat i) - 1)%Z in
  (maxfix <? curfix)%Z || ((b_cost b =? 0) && (curfix =? maxfix)%Z).
(** 301-317 *)
Definition try_shift (cur ref : list Z) (ralign : list Z) (curerr i : nat) (b : option best) (s : Z) : option best :=
  b <- b ;;
  if hopeless curerr i b then Some b
  else
    mv <- (if (get_moveto s <? 0)%Z then None else nth_error ralign (Z.to_nat (get_moveto s))) ;;
    shifted <- PerformShift cur (get_begin s) (get_end s) mv ;;
    r <- MinimumEditDistance shifted ref ;;
    let gain := (Z.of_nat (b_err b + b_cost b) - Z.of_nat (fst r + 1))%Z in
    if (0 <? gain)%Z || ((b_cost b =? 0) && (gain =? 0)%Z)
    then Some {| b_cost := 1; b_err := fst r; b_new := Some (shifted, snd r) |}
    else Some b.
(** 296-319: from the last size down; [sh] is in that order, [i] one more than the size index *)
Fixpoint try_sizes (cur ref : list Z) (ralign : list Z) (curerr : nat) (sh : list (list Z)) (i : nat) (b : option best) : option best :=
  match sh with
  | [] => b
  | s :: rest =>
    b' <- b ;;
    if hopeless curerr (i - 1) b' then Some b'
    else try_sizes cur ref ralign curerr rest (i - 1) (fold_left (try_shift cur ref ralign curerr (i - 1)) s (Some b'))
  end.
Definition CalculateBestShift (cur ref : list Z) (nm : nmap) (curerr : nat) (path : list trans) : option best :=
  let '(herr, rerr, ralign) := path_info path (-1) in
  sh <- GetAllPossibleShifts cur nm ralign herr rerr ;;
  try_sizes cur ref ralign curerr (rev sh) (length sh) (Some {| b_cost := 0; b_err := curerr; b_new := None |}).

(** ** GetPathStats (324-339): substitutions, insertions, deletions *)
Fixpoint GetPathStats (path : list trans) : nat * nat * nat :=
  match path with
  | [] => (0, 0, 0)
  | t :: r =>
    let '(s, i, d) := GetPathStats r in
    match t with SUBSTITUTION => (S s, i, d) | MATCH => (s, i, d) | INSERTION => (s, S i, d) | DELETION => (s, i, S d) end
  end.

(** ** CalculateAllShifts (341-367) *)
Record ter := { t_score : nat; t_subs : nat; t_ins : nat; t_dels : nat; t_shifts : nat }.
(** 352-363 *)
Fixpoint shift_loop (fuel : nat) (ref : list Z) (nm : nmap) (cur : list Z) (med : nat) (path : list trans) (shifts : nat)
  : option (nat * list trans * nat) :=
  match fuel with
  | O => None
  | S f =>
    b <- CalculateBestShift cur ref nm med path ;;
    match b_new b with
    | None => Some (med, path, shifts)
    | Some (new_hyp, new_path) => shift_loop f ref nm new_hyp (b_err b) new_path (S shifts)
    end
  end.
Definition Calculate (fuel : nat) (ref hyp : list Z) : option ter :=
  let nm := BuildWordMatches hyp ref in
  r <- MinimumEditDistance hyp ref ;;
  l <- shift_loop fuel ref nm hyp (fst r) (snd r) 0 ;;
  let '(med, path, shifts) := l in
  let '(subs, ins, dels) := GetPathStats path in
  Some {| t_score := med + shifts; t_subs := subs; t_ins := ins; t_dels := dels; t_shifts := shifts |}.

(** ns_ter.cc 37-61; the last field is the reference length: the average, rounded down.
    No reference at all divides by zero. *)
Fixpoint ter_loop (fuel : nat) (hyp : list Z) (refs : list (list Z)) (best : option ter) : option (option ter) :=
  match refs with
  | [] => Some best
  | r :: rest =>
    t <- Calculate fuel r hyp ;;
    ter_loop fuel hyp rest
      (match best with Some b => if t_score t <? t_score b then Some t else best | None => Some t end)
  end.
Definition ter_stats (fuel : nat) (hyp : list Z) (refs : list (list Z)) : option (ter * nat) :=
  if length refs =? 0 then None
  else
    b <- ter_loop fuel hyp refs None ;;
    t <- b ;;
    Some (t, fold_left (fun a r => a + length r) refs 0 / length refs).
